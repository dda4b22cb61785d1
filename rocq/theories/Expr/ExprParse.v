(** Parsing the symbols of a written expression gives its tree. *)
From Coq Require Import Arith ZArith QArith Ascii String List Bool Lia.
From Verif Require Import Base.Res Expr.ExprModel Expr.ExprSpec.
Import ListNotations.
Local Open Scope nat_scope.

Definition tok_of (s : sym) : tok :=
  match s with
  | SOpen => TOpen | SClose => TClose | SBar => TBar | SPlus => TPlus | SMinus => TMinus | STimes => TTimes | SDiv => TDiv
  | SCaret => TCaret | SBang => TBang | SComma => TComma | SFn f => TFn f | SPow => TPow | SPi => TNum NPi
  | SNum l => TNum (scan (literal_text l)) | SVar s => TVar s
  end.

Definition binid (o : binop) : nid := match o with BAdd => Add | BSub => Sub | BMul => Mul | BDiv => Dvd | BPow => Pw end.

Fixpoint tree_of (e : expr) : tree :=
  match e with
  | ENum l => Node Null (Num (scan (literal_text l))) Null
  | EPi => Node Null (Num NPi) Null
  | EVar s => Node Null (Var s) Null
  | EPar e => tree_of e
  | EUn neg e => Node Null (if neg then Neg else Pos) (tree_of e)
  | EBin o e1 e2 => Node (tree_of e1) (binid o) (tree_of e2)
  | EJux e1 e2 => Node (tree_of e1) Mul (tree_of e2)
  | EFact e => Node (tree_of e) Fct Null
  | EFn f e => Node Null (Fun f) (tree_of e)
  | EBar e => Node Null (Fun Abs) (tree_of e)
  | EPow e1 e2 => Node (tree_of e1) Pw (tree_of e2)
  end.

Fixpoint run (l : list tok) (s : pstate) : res pstate :=
  match l with [] => Ok s | t :: l' => let! s' := step s t in run l' s' end.
Lemma run_app l1 l2 s : run (l1 ++ l2) s = let! s' := run l1 s in run l2 s'.
Proof. revert s. induction l1 as [|t l1 IH]; intros s; cbn [run app rbind]; [reflexivity|]. destruct (step s t); cbn [rbind]; auto. Qed.

Fixpoint fill (fs : list frame) (t : tree) : tree :=
  match fs with [] => t | F :: fs' => fill fs' (Node (f_left F) (f_id F) t) end.
Lemma fill_app fs gs t : fill (fs ++ gs) t = fill gs (fill fs t).
Proof. revert t. induction fs as [|F fs IH]; intros t; cbn; auto. Qed.

Lemma climb_fill stop fs F stk t :
  Forall (fun G => stop (f_prec G) = false) fs -> stop (f_prec F) = true ->
  climb stop (fs ++ F :: stk) t = (F :: stk, fill fs t).
Proof.
  intros Hf HF. revert t. induction fs as [|G fs IH]; intros t; cbn.
  - rewrite HF. reflexivity.
  - inversion Hf; subst. rewrite H1. apply IH. assumption.
Qed.

Definition above (p : nat) (fs : list frame) : Prop := Forall (fun G => p <= f_prec G) fs.

Lemma climb_left p q fs F stk t : above q fs -> p <= q -> f_prec F < p ->
  climb (fun x => Nat.ltb x p) (fs ++ F :: stk) t = (F :: stk, fill fs t).
Proof.
  intros Ha Hq HF. apply climb_fill.
  - eapply Forall_impl; [|exact Ha]. intros G HG. cbn in *. apply Nat.ltb_ge. lia.
  - apply Nat.ltb_lt. exact HF.
Qed.
Lemma climb_right p q fs F stk t : above q fs -> p < q -> f_prec F <= p ->
  climb (fun x => Nat.leb x p) (fs ++ F :: stk) t = (F :: stk, fill fs t).
Proof.
  intros Ha Hq HF. apply climb_fill.
  - eapply Forall_impl; [|exact Ha]. intros G HG. cbn in *. apply Nat.leb_gt. lia.
  - apply Nat.leb_le. exact HF.
Qed.

(** Where an expression may start: the frame above it is not climbed past by its own operators. *)
Definition ctx (F : frame) (e : expr) : Prop :=
  match e with
  | EBin BPow _ _ => f_prec F <= 4
  | EBin o _ _ => f_prec F < strength o
  | EJux _ _ => f_prec F < 3
  | EUn _ _ | EPar _ | EBar _ | EPow _ _ => True
  | EFact _ => f_prec F < 6
  | ENum _ | EPi | EVar _ | EFn _ _ => f_prec F < 7
  end.
Lemma ctx_level F e p : f_prec F < p -> p <= 7 -> p <= level e -> ctx F e.
Proof. intros H H7 Hp. destruct e; cbn in *; try lia; try exact I. destruct o; cbn in *; lia. Qed.

Definition top (inbar : bool) : nat := if inbar then 1 else 0.
Definition low (e : expr) : nat := Nat.min 7 (level e).

(** What reading [e], written [w], does to a state. *)
Definition reads (inbar : bool) (w : list sym) (q : nat) (tr : tree) (okF : frame -> Prop) (oksign : Prop) : Prop :=
  forall F stk prev n nP nB oP oB two err,
    okF F -> valueish prev = false -> (signish prev = true -> oksign) ->
    exists fs t prev',
      run (map tok_of w) (mkP (F :: stk, Null) prev inbar (n :: nP) (top inbar :: nB) oP oB two err)
      = Ok (mkP (fs ++ F :: stk, t) prev' inbar (n :: nP) (top inbar :: nB) oP oB two err) /\
      fill fs t = tr /\ above q fs /\ valueish prev' = true.

Lemma add_node_plain id prec i z prev b nP nB oP oB two err F rest :
  match id with OpenP | OpenB | Num _ | Var _ | Pos | Neg => False | _ => True end ->
  insert z id prec i = Ok (F :: rest, Null) ->
  add_node id prec i (mkP z prev b nP nB oP oB two err) = Ok (mkP (F :: rest, Null) id b nP nB oP oB two err).
Proof.
  intros Hid Hi. unfold add_node, implicit_mult. destruct id; try contradiction; cbn [rbind p_prev andb signish p_zip]; rewrite Hi; cbn; reflexivity.
Qed.

Lemma add_node_start id prec i z prev b nP nB oP oB two err F rest :
  valueish prev = false -> (signish id = true -> signish prev = false) ->
  insert z id prec i = Ok (F :: rest, Null) ->
  add_node id prec i (mkP z prev b nP nB oP oB two err) = Ok (mkP (F :: rest, Null) id b nP nB oP oB two err).
Proof.
  intros Hv Hs Hi. unfold add_node.
  assert (E : implicit_mult id (mkP z prev b nP nB oP oB two err) = Ok (mkP z prev b nP nB oP oB two err)).
  { unfold implicit_mult. cbn [p_prev]. destruct id; try reflexivity. destruct prev; try reflexivity. discriminate. }
  rewrite E. cbn [rbind p_prev p_zip]. rewrite Hv, andb_false_r.
  replace (signish id && signish prev) with false by (destruct (signish id) eqn:E1; [rewrite (Hs eq_refl)|]; reflexivity).
  rewrite Hi. cbn. reflexivity.
Qed.

(** An open parenthesis where a value may start. *)
Lemma step_open z prev b n nP nB oP oB two err : valueish prev = false -> fst z <> [] ->
  step (mkP z prev b (n :: nP) nB oP oB two err) TOpen =
  Ok (mkP (mkF (snd z) OpenP 0 :: fst z, Null) OpenP false (S n :: nP) (0 :: nB) (S oP) oB two err).
Proof.
  intros Hv Hz. cbn [step p_nP p_zip p_prev p_nB p_openP p_openB p_two p_err].
  apply add_node_start; [exact Hv|discriminate|]. destruct z as [[|F stk] t]; [cbn in Hz; congruence|]. reflexivity.
Qed.

Lemma step_close fs G F stk t prev n nP b nB oP oB two err : above 1 fs -> f_prec G = 0 ->
  step (mkP (fs ++ G :: F :: stk, t) prev false (S n :: nP) (0 :: top b :: nB) (S oP) oB two err) TClose =
  Ok (mkP (F :: stk, fill fs t) CloseP b (n :: nP) (top b :: nB) oP oB two err).
Proof.
  intros Ha HG. cbn [step p_nP p_zip p_prev p_nB p_openP p_openB p_two p_err pred].
  unfold add_node, implicit_mult. cbn [rbind p_prev andb signish p_zip].
  unfold insert. cbn [fst snd]. rewrite (climb_right 0 1 fs G (F :: stk) t Ha) by lia. cbn [rbind fst].
  destruct b; reflexivity.
Qed.

Lemma reads_par inbar e : (forall b, reads b (write b e) (low e) (tree_of e) (fun F => ctx F e) (6 <= level e)) -> 1 <= level e ->
  reads inbar (par (write false e)) 7 (tree_of e) (fun _ => True) True.
Proof.
  intros IH Hl F stk prev n nP nB oP oB two err _ Hv _. exists [], (tree_of e), CloseP.
  split; [|split; [reflexivity|split; [constructor|reflexivity]]].
  unfold par. cbn [map run tok_of]. rewrite step_open by (try exact Hv; discriminate). cbn [rbind fst snd].
  rewrite map_app, run_app.
  destruct (IH false (mkF Null OpenP 0) (F :: stk) OpenP (S n) nP (top inbar :: nB) (S oP) oB two err) as (fs & t & prev' & E & Hf & Ha & Hp).
  - apply (ctx_level _ _ 1); cbn; lia.
  - reflexivity.
  - discriminate.
  - cbn [top] in E. rewrite E. cbn [rbind map tok_of run]. rewrite step_close.
    + cbn [rbind]. rewrite Hf. reflexivity.
    + eapply Forall_impl; [|exact Ha]. intros G HG. unfold low in HG. cbv beta in HG |- *. lia.
    + reflexivity.
Qed.

(** An operand, parenthesised if it binds less than [n]. *)
Definition operand_w (inbar : bool) (n : nat) (e : expr) : list sym :=
  if Nat.leb n (level e) then write inbar e else par (write false e).
Lemma reads_operand inbar n e : (forall b, reads b (write b e) (low e) (tree_of e) (fun F => ctx F e) (6 <= level e)) -> 1 <= level e ->
  forall (P : frame -> Prop), (forall F, P F -> n <= level e -> ctx F e) ->
  reads inbar (operand_w inbar n e) (Nat.min 7 n) (tree_of e) P (6 <= n).
Proof.
  intros IH Hl P HP F stk prev m nP nB oP oB two err HF Hv Hs. unfold operand_w. destruct (Nat.leb_spec n (level e)) as [L|L].
  - destruct (IH inbar F stk prev m nP nB oP oB two err (HP F HF L) Hv) as (fs & t & prev' & E & Hf & Ha & Hp).
    + intros H. specialize (Hs H). lia.
    + exists fs, t, prev'. split; [exact E|]. split; [exact Hf|]. split; [|exact Hp].
      eapply Forall_impl; [|exact Ha]. intros G HG. unfold low in HG. cbv beta in HG |- *. lia.
  - destruct (reads_par inbar e IH Hl F stk prev m nP nB oP oB two err I Hv (fun _ => I)) as (fs & t & prev' & E & Hf & Ha & Hp).
    exists fs, t, prev'. split; [exact E|]. split; [exact Hf|]. split; [|exact Hp].
    eapply Forall_impl; [|exact Ha]. cbv beta. intros. lia.
Qed.

(** A left-associative operator after a value. *)
Lemma insert_left fs F stk t id p q : above q fs -> p <= q -> f_prec F < p ->
  match id with CloseP | CloseB => False | _ => True end ->
  insert (fs ++ F :: stk, t) id p LeftAssoc = Ok (mkF (fill fs t) id p :: F :: stk, Null).
Proof.
  intros Ha Hq HF Hid. unfold insert. cbn [fst snd]. rewrite (climb_left p q fs F stk t Ha Hq HF). destruct id; try contradiction; reflexivity.
Qed.
Lemma insert_right fs F stk t id p q : above q fs -> p < q -> f_prec F <= p ->
  match id with CloseP | CloseB => False | _ => True end ->
  insert (fs ++ F :: stk, t) id p RightAssoc = Ok (mkF (fill fs t) id p :: F :: stk, Null).
Proof.
  intros Ha Hq HF Hid. unfold insert. cbn [fst snd]. rewrite (climb_right p q fs F stk t Ha Hq HF). destruct id; try contradiction; reflexivity.
Qed.

Lemma level_pos e : 1 <= level e.
Proof. destruct e; cbn; try lia. destruct o; cbn; lia. Qed.

(** The binary operator symbols, after a value. *)
Lemma step_left o z prev b nP nB oP oB two err F rest : o <> BPow -> valueish prev = true ->
  insert z (binid o) (strength o) LeftAssoc = Ok (F :: rest, Null) ->
  step (mkP z prev b nP nB oP oB two err) (tok_of (binsym o)) = Ok (mkP (F :: rest, Null) (binid o) b nP nB oP oB two err).
Proof.
  intros Ho Hv Hi. destruct o; cbn [binsym tok_of step binid strength p_prev] in *; try congruence; rewrite ?Hv; apply add_node_plain; try exact I; exact Hi.
Qed.

Lemma reads_binary inbar w1 w2 q1 q2 t1 t2 P1 s1 P2 o (F0 : frame -> Prop) : o <> BPow ->
  reads inbar w1 q1 t1 P1 s1 -> strength o <= q1 -> reads inbar w2 q2 t2 P2 False -> strength o <= q2 ->
  (forall F, F0 F -> P1 F /\ f_prec F < strength o) -> (forall G, f_prec G = strength o -> P2 G) ->
  reads inbar (w1 ++ [binsym o] ++ w2) (strength o) (Node t1 (binid o) t2) F0 s1.
Proof.
  intros Ho R1 H1 R2 H2 HF HG F stk prev n nP nB oP oB two err HF0 Hv Hs. destruct (HF F HF0) as [HP1 HFp].
  destruct (R1 F stk prev n nP nB oP oB two err HP1 Hv Hs) as (fs & t & prev' & E & Hf & Ha & Hp).
  rewrite map_app, run_app, E. cbn [rbind app map run].
  rewrite (step_left o _ _ _ _ _ _ _ _ _ (mkF (fill fs t) (binid o) (strength o)) (F :: stk) Ho Hp)
    by (apply insert_left with (q := q1); [exact Ha|exact H1|exact HFp|destruct o; exact I]).
  cbn [rbind].
  destruct (R2 (mkF (fill fs t) (binid o) (strength o)) (F :: stk) (binid o) n nP nB oP oB two err) as (fs2 & u & prev2 & E2 & Hf2 & Ha2 & Hp2).
  - apply HG. reflexivity.
  - destruct o; reflexivity.
  - destruct o; discriminate.
  - rewrite E2. exists (fs2 ++ [mkF (fill fs t) (binid o) (strength o)]), u, prev2.
    rewrite <- app_assoc. split; [reflexivity|]. split.
    + rewrite fill_app, Hf2. cbn. rewrite Hf. reflexivity.
    + split; [|exact Hp2]. apply Forall_app. split; [eapply Forall_impl; [|exact Ha2]; cbn; intros; lia|].
      constructor; [cbn; lia|constructor].
Qed.

Lemma reads_weaken inbar w q t P s (P' : frame -> Prop) (s' : Prop) : reads inbar w q t P s -> (forall F, P' F -> P F) -> (s' -> s) -> reads inbar w q t P' s'.
Proof. intros R HP Hs F stk prev n nP nB oP oB two err HF Hv Hsg. apply R; auto. Qed.

Lemma step_comma z prev b nP nB oP oB two err :
  step (mkP z prev b nP nB oP oB (S two) err) TComma = add_node Pw 5 LeftAssoc (mkP z prev b nP nB oP oB two err).
Proof. reflexivity. Qed.

(** One value token. *)
Lemma reads_atom inbar s id tr (P : frame -> Prop) : tok_of s = (match id with Num n => TNum n | Var v => TVar v | _ => tok_of s end) ->
  match id with Num _ | Var _ => True | _ => False end -> tr = Node Null id Null ->
  (forall F, P F -> f_prec F < 7) -> forall sg, reads inbar [s] 7 tr P sg.
Proof.
  intros Ht Hid -> HP sg F stk prev n nP nB oP oB two err HF Hv _.
  exists [mkF Null id 7], Null, id. split; [|split; [reflexivity|split; [constructor; [cbn; lia|constructor]|destruct id; try contradiction; reflexivity]]].
  cbn [map run]. rewrite Ht.
  assert (E : step (mkP (F :: stk, Null) prev inbar (n :: nP) (top inbar :: nB) oP oB two err) (match id with Num n => TNum n | Var v => TVar v | _ => tok_of s end)
     = add_node id 7 LeftAssoc (mkP (F :: stk, Null) prev inbar (n :: nP) (top inbar :: nB) oP oB two err)) by (destruct id; try contradiction; reflexivity).
  rewrite E. rewrite (add_node_start _ _ _ _ _ _ _ _ _ _ _ _ (mkF Null id 7) (F :: stk)); [reflexivity|exact Hv|destruct id; try contradiction; discriminate|].
  apply (insert_left [] F stk Null id 7 7); [constructor|lia|apply HP; exact HF|destruct id; try contradiction; exact I].
Qed.

Lemma write_bin inbar o e1 e2 : o <> BPow ->
  write inbar (EBin o e1 e2) = operand_w inbar (strength o) e1 ++ [binsym o] ++ operand_w inbar (S (strength o)) e2.
Proof. intros H. destruct o; try congruence; reflexivity. Qed.

Lemma reads_write e : forall inbar, reads inbar (write inbar e) (low e) (tree_of e) (fun F => ctx F e) (6 <= level e).
Proof.
  induction e as [l| |v|e IH|neg e IH|o e1 IH1 e2 IH2|e1 IH1 e2 IH2|e IH|f e IH|e IH|e1 IH1 e2 IH2]; intros inbar.
  - apply (reads_atom _ _ (Num (scan (literal_text l)))); try reflexivity; try exact I. intros F H. exact H.
  - apply (reads_atom _ _ (Num NPi)); try reflexivity; try exact I. intros F H. exact H.
  - apply (reads_atom _ _ (Var v)); try reflexivity; try exact I. intros F H. exact H.
  - (* redundant parentheses *)
    eapply reads_weaken; [apply (reads_par inbar e IH (level_pos e))| |]; auto.
  - (* sign *)
    cbn [write]. intros F stk prev n nP nB oP oB two err HF Hv Hs.
    assert (Hsp : signish prev = false) by (destruct (signish prev); [specialize (Hs eq_refl); cbn in Hs; lia|reflexivity]).
    set (id := if neg then Neg else Pos).
    assert (Es : step (mkP (F :: stk, Null) prev inbar (n :: nP) (top inbar :: nB) oP oB two err) (tok_of (if neg then SMinus else SPlus)) =
              Ok (mkP (mkF Null id 5 :: F :: stk, Null) id inbar (n :: nP) (top inbar :: nB) oP oB two err)).
    { unfold id. destruct neg; cbn [tok_of step p_prev]; rewrite Hv; apply add_node_start; auto. }
    cbn [map run]. rewrite Es. cbn [rbind].
    change (if 6 <=? level e then write inbar e else par (write false e)) with (operand_w inbar 6 e).
    destruct (reads_operand inbar 6 e IH (level_pos e) (fun G => f_prec G = 5)) with (F := mkF Null id 5) (stk := F :: stk) (prev := id) (n := n) (nP := nP) (nB := nB) (oP := oP) (oB := oB) (two := two) (err := err)
      as (fs & t & prev' & E & Hf & Ha & Hp).
    + intros G HG L. apply (ctx_level _ _ 6); cbn; lia.
    + reflexivity.
    + unfold id. destruct neg; reflexivity.
    + intros _. lia.
    + exists (fs ++ [mkF Null id 5]), t, prev'. rewrite <- app_assoc. split; [exact E|]. split.
      * rewrite fill_app, Hf. reflexivity.
      * split; [|exact Hp]. apply Forall_app. split; [eapply Forall_impl; [|exact Ha]; cbn; unfold low; cbn; intros; lia|].
        constructor; [cbn; unfold low; cbn; lia|constructor].
  - (* binary *)
    destruct o.
    1-4: rewrite write_bin by discriminate; match goal with |- reads _ (operand_w _ (strength ?o) _ ++ _) _ _ _ _ =>
      apply (reads_weaken _ _ _ _ (fun F => f_prec F < strength o) (6 <= strength o)); [|intros F HF; exact HF|cbn; lia];
      change (low (EBin o e1 e2)) with (strength o);
      eapply (reads_binary inbar _ _ _ _ _ _ (fun F => f_prec F < strength o) (6 <= strength o) (fun G => f_prec G = strength o) o); [discriminate| | | | | | ];
      [apply (reads_operand inbar (strength o) e1 IH1 (level_pos e1)); intros F HF L; apply (ctx_level _ _ (strength o)); cbn in *; lia
      |cbn; lia
      |eapply reads_weaken; [apply (reads_operand inbar (S (strength o)) e2 IH2 (level_pos e2) (fun G => f_prec G = strength o)); intros G HG L; apply (ctx_level _ _ (S (strength o))); cbn in *; lia|auto|contradiction]
      |cbn; lia
      |intros F HF; split; exact HF
      |auto] end.
    (* power *)
    change (write inbar (EBin BPow e1 e2)) with (operand_w inbar 5 e1 ++ [SCaret] ++ operand_w inbar 4 e2).
    intros F stk prev n nP nB oP oB two err HF Hv Hs. cbn [ctx] in HF.
    destruct (reads_operand inbar 5 e1 IH1 (level_pos e1) (fun G => f_prec G < 5)) with (F := F) (stk := stk) (prev := prev) (n := n) (nP := nP) (nB := nB) (oP := oP) (oB := oB) (two := two) (err := err)
      as (fs & t & prev' & E & Hf & Ha & Hp).
    + intros G HG L. apply (ctx_level _ _ 5); lia.
    + lia.
    + exact Hv.
    + intros H. specialize (Hs H). cbn in Hs. lia.
    + rewrite map_app, run_app, E. cbn [rbind app map run tok_of step].
      rewrite (add_node_plain Pw 4 RightAssoc _ _ _ _ _ _ _ _ _ (mkF (fill fs t) Pw 4) (F :: stk) I)
        by (apply insert_right with (q := 5); [exact Ha|lia|lia|exact I]).
      cbn [rbind].
      destruct (reads_operand inbar 4 e2 IH2 (level_pos e2) (fun G => f_prec G = 4)) with (F := mkF (fill fs t) Pw 4) (stk := F :: stk) (prev := Pw) (n := n) (nP := nP) (nB := nB) (oP := oP) (oB := oB) (two := two) (err := err)
        as (fs2 & u & prev2 & E2 & Hf2 & Ha2 & Hp2).
      * intros G HG L. destruct e2; try (apply (ctx_level _ _ 5); cbn in *; lia); cbn in *; try exact I; try lia. destruct o; cbn in *; lia.
      * reflexivity.
      * reflexivity.
      * discriminate.
      * rewrite E2. exists (fs2 ++ [mkF (fill fs t) Pw 4]), u, prev2. rewrite <- app_assoc. split; [reflexivity|]. split.
        -- rewrite fill_app, Hf2. cbn. rewrite Hf. reflexivity.
        -- split; [|exact Hp2]. apply Forall_app. split; [eapply Forall_impl; [|exact Ha2]; cbn; unfold low; cbn; intros; lia|].
           constructor; [cbn; unfold low; cbn; lia|constructor].
  - (* juxtaposition *)
    change (write inbar (EJux e1 e2)) with (par (write false e1) ++ par (write false e2)).
    intros F stk prev n nP nB oP oB two err HF Hv Hs. cbn [ctx] in HF.
    destruct (reads_par inbar e1 IH1 (level_pos e1) F stk prev n nP nB oP oB two err I Hv (fun _ => I)) as (fs & t & prev' & E & Hf & Ha & Hp).
    rewrite map_app, run_app, E. cbn [rbind].
    assert (Hprev : prev' = CloseP /\ fs = [] /\ t = tree_of e1).
    { clear - E IH1 Hv. revert E. unfold par. cbn [map run tok_of]. rewrite step_open by (try exact Hv; discriminate). cbn [rbind fst snd].
      rewrite map_app, run_app.
      destruct (IH1 false (mkF Null OpenP 0) (F :: stk) OpenP (S n) nP (top inbar :: nB) (S oP) oB two err) as (gs & t' & p2 & E' & Hf & Ha & Hp).
      - apply (ctx_level _ _ 1); cbn; try lia. apply level_pos.
      - reflexivity.
      - discriminate.
      - cbn [top] in E'. rewrite E'. cbn [rbind map tok_of run]. rewrite step_close; [|eapply Forall_impl; [|exact Ha]; intros G HG; unfold low in HG; cbv beta in HG |- *; pose proof (level_pos e1); lia|reflexivity].
        cbn [rbind]. intros H. rewrite Hf in H.
        assert (X : fs = []).
        { pose proof (f_equal (fun r => match r with Ok s => List.length (fst (p_zip s)) | _ => 0 end) H) as L. cbn in L. rewrite app_length in L. cbn in L.
          destruct fs; [reflexivity|cbn in L; lia]. }
        subst fs. cbn [app] in H. injection H as <- <-. auto. }
    destruct Hprev as (-> & -> & ->).
    (* the implicit product *)
    set (M := mkF (tree_of e1) Mul 3).
    assert (Es : forall l, run (map tok_of (SOpen :: l)) (mkP ([] ++ F :: stk, tree_of e1) CloseP inbar (n :: nP) (top inbar :: nB) oP oB two err) =
                 run (map tok_of (SOpen :: l)) (mkP (M :: F :: stk, Null) Mul inbar (n :: nP) (top inbar :: nB) oP oB two err)).
    { intros l. cbn [map run tok_of app]. rewrite (step_open (M :: F :: stk, Null) Mul) by (try reflexivity; discriminate). cbn [fst snd].
      cbn [step p_nP p_zip p_prev p_nB p_openP p_openB p_two p_err]. unfold add_node, implicit_mult. cbn [p_prev p_zip].
      change (F :: stk, tree_of e1) with ([] ++ F :: stk, tree_of e1).
      rewrite (insert_left [] F stk (tree_of e1) Mul 3 7) by first [exact (Forall_nil _) | exact I | lia].
      cbn [rbind p_prev valueish andb signish p_zip insert fst]. reflexivity. }
    unfold par at 1. rewrite Es. fold (par (write false e2)).
    destruct (reads_par inbar e2 IH2 (level_pos e2) M (F :: stk) Mul n nP nB oP oB two err I eq_refl (fun _ => I)) as (fs2 & u & prev2 & E2 & Hf2 & Ha2 & Hp2).
    rewrite E2. exists (fs2 ++ [M]), u, prev2. rewrite <- app_assoc. split; [reflexivity|]. split.
    + rewrite fill_app, Hf2. reflexivity.
    + split; [|exact Hp2]. apply Forall_app. split; [eapply Forall_impl; [|exact Ha2]; cbn; unfold low; cbn; intros; lia|].
      constructor; [cbn; unfold low; cbn; lia|constructor].
  - (* factorial *)
    change (write inbar (EFact e)) with (operand_w inbar 6 e ++ [SBang]).
    intros F stk prev n nP nB oP oB two err HF Hv Hs. cbn [ctx] in HF.
    destruct (reads_operand inbar 6 e IH (level_pos e) (fun G => f_prec G < 6)) with (F := F) (stk := stk) (prev := prev) (n := n) (nP := nP) (nB := nB) (oP := oP) (oB := oB) (two := two) (err := err)
      as (fs & t & prev' & E & Hf & Ha & Hp).
    + intros G HG L. apply (ctx_level _ _ 6); lia.
    + exact HF.
    + exact Hv.
    + auto.
    + rewrite map_app, run_app, E. cbn [rbind map run tok_of step].
      rewrite (add_node_plain Fct 6 LeftAssoc _ _ _ _ _ _ _ _ _ (mkF (fill fs t) Fct 6) (F :: stk) I)
        by (apply insert_left with (q := 6); [exact Ha|lia|lia|exact I]).
      cbn [rbind]. exists [mkF (fill fs t) Fct 6], Null, Fct. split; [reflexivity|]. split; [cbn; rewrite Hf; reflexivity|].
      split; [constructor; [cbn; unfold low; cbn; lia|constructor]|reflexivity].
  - (* function *)
    change (write inbar (EFn f e)) with (SFn f :: par (write false e)).
    intros F stk prev n nP nB oP oB two err HF Hv Hs. cbn [ctx] in HF.
    cbn [map run tok_of step].
    rewrite (add_node_plain (Fun f) 7 LeftAssoc _ _ _ _ _ _ _ _ _ (mkF Null (Fun f) 7) (F :: stk) I)
      by (apply (insert_left [] F stk Null (Fun f) 7 7); [constructor|lia|exact HF|exact I]).
    cbn [rbind].
    destruct (reads_par inbar e IH (level_pos e) (mkF Null (Fun f) 7) (F :: stk) (Fun f) n nP nB oP oB two err I eq_refl (fun _ => I)) as (fs2 & u & prev2 & E2 & Hf2 & Ha2 & Hp2).
    rewrite E2. exists (fs2 ++ [mkF Null (Fun f) 7]), u, prev2. rewrite <- app_assoc. split; [reflexivity|]. split.
    + rewrite fill_app, Hf2. reflexivity.
    + split; [|exact Hp2]. apply Forall_app. split; [exact Ha2|]. constructor; [cbn; lia|constructor].
  - (* bars *)
    assert (Hb : reads false (SBar :: write true e ++ [SBar]) 7 (tree_of (EBar e)) (fun _ => True) True).
    { intros F stk prev n nP nB oP oB two err _ Hv _. exists [], (tree_of (EBar e)), CloseB.
      split; [|split; [reflexivity|split; [constructor|reflexivity]]].
      cbn [map run tok_of step p_nB p_begin negb top].
      rewrite (add_node_start OpenB 1 SkipClimbUp _ _ _ _ _ _ _ _ _ (mkF Null OpenB 1) (F :: stk)) by (try exact Hv; try discriminate; reflexivity).
      cbn [rbind]. rewrite map_app, run_app. cbn [p_nP p_zip p_prev p_openP p_openB p_two p_err].
      destruct (IH true (mkF Null OpenB 1) (F :: stk) OpenB 0 (n :: nP) nB oP (S oB) two err) as (fs & t & prev' & E & Hf & Ha & Hp).
      - destruct e; cbn; try exact I; try lia. destruct o; cbn; lia.
      - reflexivity.
      - discriminate.
      - cbn [top] in E. rewrite E. cbn [rbind map tok_of run step p_nB p_begin negb p_nP p_zip p_prev p_openP p_openB p_two p_err pred].
        unfold add_node, implicit_mult. cbn [rbind p_prev andb signish p_zip]. unfold insert. cbn [fst snd].
        rewrite (climb_right 1 2 fs (mkF Null OpenB 1) (F :: stk) t); [|eapply Forall_impl; [|exact Ha]; intros G HG; unfold low in HG; cbv beta in HG |- *; destruct e; cbn [level] in HG; try lia; destruct o; cbn [strength] in HG; lia|lia|cbn; lia].
        cbn [rbind fst f_left]. rewrite Hf. reflexivity. }
    cbn [write low level]. destruct inbar.
    + (* parenthesised *)
      intros F stk prev n nP nB oP oB two err HF Hv Hs. exists [], (tree_of (EBar e)), CloseP.
      split; [|split; [reflexivity|split; [constructor|reflexivity]]].
      set (w := SBar :: write true e ++ [SBar]) in *. unfold par.
      change (map tok_of (SOpen :: w ++ [SClose])) with (TOpen :: map tok_of (w ++ [SClose])). cbn [run].
      rewrite step_open by (try exact Hv; discriminate). cbn [rbind fst snd]. rewrite map_app, run_app.
      destruct (Hb (mkF Null OpenP 0) (F :: stk) OpenP (S n) nP (top true :: nB) (S oP) oB two err I eq_refl (fun _ => I)) as (fs & t & prev' & E & Hf & Ha & Hp).
      cbn [top] in E. cbn [top]. rewrite E. cbn [rbind map tok_of run].
      change (0 :: 1 :: nB) with (0 :: top true :: nB). rewrite (step_close fs (mkF Null OpenP 0) F stk t prev' n nP true nB oP oB two err); [cbn [rbind]; rewrite Hf; reflexivity| |reflexivity].
      eapply Forall_impl; [|exact Ha]; cbn; intros; lia.
    + eapply reads_weaken; [exact Hb|auto|auto].
  - (* pow *)
    change (write inbar (EPow e1 e2)) with (SPow :: par (operand_w false 5 e1 ++ [SComma] ++ operand_w false 5 e2)).
    intros F stk prev n nP nB oP oB two err HF Hv Hs. exists [], (tree_of (EPow e1 e2)), CloseP.
    split; [|split; [reflexivity|split; [constructor|reflexivity]]].
    unfold par. cbn [map run tok_of].
    match goal with |- context [step ?s TPow] => change (step s TPow) with (Ok (mkP (p_zip s) (p_prev s) (p_begin s) (p_nP s) (p_nB s) (p_openP s) (p_openB s) (S (p_two s)) (p_err s))) end.
    cbn [rbind p_zip p_prev p_begin p_nP p_nB p_openP p_openB p_two p_err].
    rewrite step_open by (try exact Hv; discriminate). cbn [rbind fst snd].
    rewrite map_app, run_app, map_app, run_app, map_app.
    match goal with |- context [run (map tok_of [SComma] ++ ?l)] => change (map tok_of [SComma] ++ l) with (TComma :: l) end.
    destruct (reads_operand false 5 e1 IH1 (level_pos e1) (fun G => f_prec G = 0)) with (F := mkF Null OpenP 0) (stk := F :: stk) (prev := OpenP) (n := S n) (nP := nP) (nB := top inbar :: nB) (oP := S oP) (oB := oB) (two := S two) (err := err)
      as (fs & t & prev' & E & Hf & Ha & Hp).
    + intros G HG L. apply (ctx_level _ _ 5); lia.
    + reflexivity.
    + reflexivity.
    + discriminate.
    + cbn [top] in E. rewrite E. cbn [rbind run]. rewrite step_comma.
      rewrite (add_node_plain Pw 5 LeftAssoc _ _ _ _ _ _ _ _ _ (mkF (fill fs t) Pw 5) (mkF Null OpenP 0 :: F :: stk) I)
        by (apply insert_left with (q := 5); [exact Ha|lia|cbn; lia|exact I]).
      cbn [rbind].
      destruct (reads_operand false 5 e2 IH2 (level_pos e2) (fun G => f_prec G = 5)) with (F := mkF (fill fs t) Pw 5) (stk := mkF Null OpenP 0 :: F :: stk) (prev := Pw) (n := S n) (nP := nP) (nB := top inbar :: nB) (oP := S oP) (oB := oB) (two := two) (err := err)
        as (fs2 & u & prev2 & E2 & Hf2 & Ha2 & Hp2).
      * intros G HG L. destruct e2; try (apply (ctx_level _ _ 6); cbn in *; lia); cbn in *; try exact I; try lia. destruct o; cbn in *; lia.
      * reflexivity.
      * reflexivity.
      * discriminate.
      * cbn [top] in E2. rewrite E2. cbn [rbind map run tok_of].
        replace (fs2 ++ mkF (fill fs t) Pw 5 :: mkF Null OpenP 0 :: F :: stk) with ((fs2 ++ [mkF (fill fs t) Pw 5]) ++ mkF Null OpenP 0 :: F :: stk) by (rewrite <- app_assoc; reflexivity).
        rewrite step_close; [| |reflexivity].
        -- cbn [rbind]. rewrite fill_app, Hf2. cbn [fill f_left f_id]. rewrite Hf. reflexivity.
        -- apply Forall_app. split; [eapply Forall_impl; [|exact Ha2]; cbn; intros; lia|constructor; [cbn; lia|constructor]].
Qed.

Lemma plug_fill fs R t : plug (fs ++ [R]) t = fill fs t.
Proof. revert t. induction fs as [|G fs IH]; intros t; cbn [app plug fill]; [reflexivity|]. destruct (fs ++ [R]) eqn:E; [destruct fs; discriminate|]. apply IH. Qed.

(** Tokens to tree. *)
Lemma parse_write e : exists s, run (map tok_of (write false e)) p_init = Ok s /\ finish s = Ok (tree_of e).
Proof.
  destruct (reads_write e false (mkF Null Empty 0) [] Empty 0 [] [] 0 0 0 false) as (fs & t & prev' & E & Hf & Ha & Hp).
  - destruct e; cbn; try exact I; try lia. destruct o; cbn; lia.
  - reflexivity.
  - discriminate.
  - eexists. split; [exact E|]. unfold finish. cbn [p_err p_openP p_openB p_two Nat.eqb negb orb p_zip fst snd].
    rewrite plug_fill, Hf. destruct (tree_of e) eqn:Et; [|reflexivity]. exfalso. clear - Et. induction e; cbn in *; try discriminate. auto.
Qed.
