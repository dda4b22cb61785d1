(** C46-C49: the expression evaluator. *)
From Coq Require Import Arith ZArith QArith Qabs Ascii String List Bool Lia.
From Verif Require Import Base.Res Expr.ExprModel Expr.ExprSpec Expr.ExprLex Expr.ExprParse Expr.ExprProof.
Import ListNotations.
Local Open Scope nat_scope.

(** An arithmetic for the examples: rationals; the C library functions are not needed by them, apart from abs. *)
Definition Q_arith : arith := {|
  car := Q; a0 := 0%Q; a_of := fun q => q; a_pi := (355 # 113)%Q; a_neg := Qopp; a_add := Qplus; a_sub := Qminus; a_mul := Qmult; a_div := Qdiv;
  a_pow := fun x y => Qpower x (Qnum (Qred y)); a_fn := fun f x => match f with Abs => Qabs.Qabs x | _ => x end;
  a_fact := fun x => let! z := factorial (Qnum x / Z.pos (Qden x)) in Ok (inject_Z z); a_zero := fun x => Qeq_bool x 0 |}.
Definition no_vars (_ : text) : option Q_arith := None.
Definition x_is (q : Q) (s : text) : option Q_arith := if list_eq_dec ascii_dec s (chars "x") then Some q else None.
Definition value (env : text -> option Q_arith) (s : string) : res Q := let! q := expression_value Q_arith env (chars s) in Ok (Qred q).

(** C46.  Every expression, written with the parentheses that the strengths of the operators ask for and with any
    white space, evaluates to its mathematical value.  Partial: the strengths are those of the code, where a sign binds
    more strongly than ^ (next theorem). *)
Theorem C46_meaning_partial : forall (A : arith) (env : text -> option A) (e : expr) (txt : text) (v : A),
  expr_ok e -> spells (write false e) txt -> denote A env e = Some v ->
  expression_value A env txt = Ok v.
Proof. exact meaning. Qed.
Print Assumptions C46_meaning_partial.

(** Fully parenthesised texts do not depend on the strengths: in the expression every operand is [EPar]. *)
Fixpoint fully (e : expr) : Prop :=
  let opd e := match e with EPar _ | ENum _ | EPi | EVar _ => fully e | _ => False end in
  match e with
  | ENum _ | EPi | EVar _ => True
  | EPar e | EFn _ e | EBar e => fully e
  | EUn _ e | EFact e => opd e
  | EBin _ e1 e2 | EPow e1 e2 => opd e1 /\ opd e2
  | EJux e1 e2 => fully e1 /\ fully e2
  end.
(** Its text, written without any notion of strength. *)
Fixpoint plain (b : bool) (e : expr) : list sym :=
  match e with
  | ENum l => [SNum l] | EPi => [SPi] | EVar s => [SVar s]
  | EPar e => par (plain false e)
  | EUn neg e => (if neg then SMinus else SPlus) :: plain b e
  | EBin o e1 e2 => plain b e1 ++ [binsym o] ++ plain b e2
  | EJux e1 e2 => par (plain false e1) ++ par (plain false e2)
  | EFact e => plain b e ++ [SBang]
  | EFn f e => SFn f :: par (plain false e)
  | EBar e => let w := SBar :: plain true e ++ [SBar] in if b then par w else w
  | EPow e1 e2 => SPow :: par (plain false e1 ++ [SComma] ++ plain false e2)
  end.
Lemma fully_plain e : fully e -> forall b, write b e = plain b e.
Proof.
  assert (L : forall e, match e with EPar _ | ENum _ | EPi | EVar _ => fully e | _ => False end -> fully e /\ level e = 8) by (intros []; cbn; tauto).
  induction e; cbn [fully]; intros H b; cbn [write plain]; try reflexivity.
  - rewrite (IHe H). reflexivity.
  - destruct (L e H) as [L1 L2]. rewrite L2. cbn [Nat.leb]. rewrite (IHe L1). reflexivity.
  - destruct H as [H1 H2]. destruct (L _ H1) as [L1 L2]. destruct (L _ H2) as [M1 M2]. rewrite L2, M2. destruct o; cbn [Nat.leb strength binsym]; rewrite (IHe1 L1), (IHe2 M1); reflexivity.
  - destruct H as [H1 H2]. rewrite (IHe1 H1), (IHe2 H2). reflexivity.
  - destruct (L e H) as [L1 L2]. rewrite L2. cbn [Nat.leb]. rewrite (IHe L1). reflexivity.
  - rewrite (IHe H). reflexivity.
  - rewrite (IHe H). reflexivity.
  - destruct H as [H1 H2]. destruct (L _ H1) as [L1 L2]. destruct (L _ H2) as [M1 M2]. rewrite L2, M2. cbn [Nat.leb]. rewrite (IHe1 L1), (IHe2 M1). reflexivity.
Qed.
(** The other half of C46, in full: fully parenthesised texts. *)
Theorem C46_fully_parenthesised : forall (A : arith) (env : text -> option A) (e : expr) (txt : text) (v : A),
  expr_ok e -> fully e -> spells (plain false e) txt -> denote A env e = Some v ->
  expression_value A env txt = Ok v.
Proof. intros A env e txt v He Hf Hs Hd. apply (meaning A env e txt v He); [|exact Hd]. rewrite (fully_plain e Hf). exact Hs. Qed.
Print Assumptions C46_fully_parenthesised.

(** The sign binds more strongly than the power: "-x^2" is 4 at x = 2, not -4. *)
Theorem C46_minus_power_refuted : value (x_is 2) "-x^2" = Ok 4%Q.
Proof. vm_compute. reflexivity. Qed.

(** The hypotheses are met: 2*(x - 3)^2 / |1.5e1 - x| + 4!. *)
Definition num (d : list nat) : expr := ENum (mkL d None None).
Definition sample : expr :=
  EBin BAdd (EBin BDiv (EBin BMul (num [2]) (EBin BPow (EBin BSub (EVar (chars "x")) (num [3])) (num [2])))
                       (EBar (EBin BSub (ENum (mkL [1] (Some [5]) (Some (None, [1])))) (EVar (chars "x")))))
            (EFact (num [4])).
Lemma spells_cat w l t s : w = sym_text s ++ t -> not_run_on s t -> spells l t -> spells (s :: l) w.
Proof. intros -> H1 H2. constructor; assumption. Qed.
Lemma spells_ws w l t c : w = c :: t -> is_space c = true -> spells l t -> spells l w.
Proof. intros -> H1 H2. constructor; assumption. Qed.
Ltac spell := lazymatch goal with
  | |- spells [] [] => constructor
  | |- spells ?l (" "%char :: _) => eapply spells_ws; [reflexivity|reflexivity|]; spell
  | |- spells (_ :: _) _ => eapply spells_cat; [cbn; reflexivity|cbn; repeat split; try lia; try discriminate|]; spell
  end.
Example C46_sample : expr_ok sample /\ spells (write false sample) (chars "2* (x - 3)^2 / |1.5e1-x| +4!") /\
  option_map Qred (denote Q_arith (x_is 5) sample) = Some (124 # 5)%Q /\ value (x_is 5) "2* (x - 3)^2 / |1.5e1-x| +4!" = Ok (124 # 5)%Q.
Proof.
  split; [|split; [|split; vm_compute; reflexivity]].
  - assert (Hx : name_ok (chars "x")).
    { split; [split; [reflexivity|constructor]|]. split; [cbn; lia|]. intros w Hw. cbn in Hw. repeat (destruct Hw as [<-|Hw]; [reflexivity|]). contradiction. }
    cbn -[name_ok]. repeat first [exact Hx | split | discriminate | constructor].
  - cbn -[Nat.ltb]. spell.
Qed.

(** The factorial of the code: n! while it fits 64 bits, undefined (overflow) beyond. *)
Theorem C46_factorial_partial : forall n : nat,
  factorial (Z.of_nat n) = if Z.leb (Z.of_nat (fact n)) (2 ^ 63 - 1) then Ok (Z.of_nat (fact n)) else UB.
Proof. exact factorial_spec. Qed.
Print Assumptions C46_factorial_partial.
Example C46_factorial_overflows : factorial 20 = Ok 2432902008176640000%Z /\ factorial 21 = UB.
Proof. split; vm_compute; reflexivity. Qed.

(** C47.  Whatever the text: if it is accepted then its tokens have balanced brackets, every pow has its comma, and the
    tree has all operands. *)
Theorem C47_accepted_complete : forall (txt : text) (t : tree),
  parse txt = Ok t -> validate t = Ok tt ->
  complete t /\ exists toks, lexes txt toks /\ balanced [] toks /\ commas 0 toks.
Proof. exact accepted. Qed.
Print Assumptions C47_accepted_complete.
Example C47_accepts : (let! t := parse (chars "|(1 + |x|) (2)| - pow(x, 3)") in validate t) = Ok tt.
Proof. vm_compute. reflexivity. Qed.
Example C47_rejects : value (x_is 2) "1 + " = Throw /\ value (x_is 2) "(x" = Throw /\ value (x_is 2) "|x" = Throw /\ value (x_is 2) "x 2" = Throw /\
  value (x_is 2) "pow(x)" = Throw /\ value (x_is 2) "3 sin" = Throw /\ value (x_is 2) "" = Throw /\ value (x_is 2) "(|x)|" = Throw.
Proof. vm_compute. repeat split. Qed.

(** A text that uses a name without value is never given a value. *)
Fixpoint mentions (x : text) (e : expr) : Prop :=
  match e with
  | ENum _ | EPi => False
  | EVar s => s = x
  | EPar e | EUn _ e | EFact e | EFn _ e | EBar e => mentions x e
  | EBin _ e1 e2 | EJux e1 e2 | EPow e1 e2 => mentions x e1 \/ mentions x e2
  end.
Lemma tree_of_safe e : expr_ok e -> tsafe (tree_of e).
Proof.
  induction e as [l| |s|e IH|neg e IH|o e1 IH1 e2 IH2|e1 IH1 e2 IH2|e IH|f e IH|e IH|e1 IH1 e2 IH2]; intros H; cbn in H |- *; try (match type of H with expr_ok _ /\ expr_ok _ => destruct H as [H1 H2] end); repeat split; auto; try discriminate.
  - destruct (scan_literal l H) as (q & -> & _). discriminate.
  - destruct neg; discriminate.
  - destruct o; discriminate.
Qed.
Theorem C47_unknown_names : forall (A : arith) (env : text -> option A) (e : expr) (txt x : text),
  expr_ok e -> spells (write false e) txt -> mentions x e -> env x = None ->
  (forall v, expression_value A env txt <> Ok v) /\ ((forall a, a_fact A a <> UB) -> expression_value A env txt = Throw).
Proof.
  intros A env e txt x He Hs Hm Hx. unfold expression_value. rewrite (parse_text e txt He Hs). cbn [rbind]. rewrite validate_tree_of. cbn [rbind].
  assert (N : forall v, eval A env (tree_of e) <> Ok v).
  { clear Hs txt He. induction e as [l| |s|e IH|neg e IH|o e1 IH1 e2 IH2|e1 IH1 e2 IH2|e IH|f e IH|e IH|e1 IH1 e2 IH2]; cbn [mentions] in Hm; try contradiction; intros v; cbn [tree_of eval];
      try (destruct Hm as [Hm|Hm]; [specialize (IH1 Hm)|specialize (IH2 Hm)]; destruct (eval A env (tree_of e1)) as [u1| |]; cbn [rbind]; try discriminate; try (exfalso; eapply IH1; reflexivity);
           destruct (eval A env (tree_of e2)) as [u2| |]; cbn [rbind]; try discriminate; exfalso; eapply IH2; reflexivity);
      try (specialize (IH Hm); cbn [rbind]; destruct (eval A env (tree_of e)) as [u| |]; cbn [rbind]; try discriminate; exfalso; eapply IH; reflexivity).
    subst s. cbn [rbind]. rewrite Hx. discriminate. }
  split; [exact N|]. intros F. destruct (eval A env (tree_of e)) as [v| |] eqn:E; [destruct (N v eq_refl)|reflexivity|]. exfalso. revert E. apply eval_safe; [exact F|]. apply tree_of_safe. exact He.
Qed.
Print Assumptions C47_unknown_names.
Example C47_unknown_case : value (x_is 2) "1 + 2 * y" = Throw.
Proof. vm_compute. reflexivity. Qed.

(** C48.  The comma is an infix operator: only arguments that bind at least as strongly as a sign are taken whole
    ([write] parenthesises the others). *)
Theorem C48_pow_arguments_refuted : value no_vars "pow(1+2,2)" = Ok 5%Q.
Proof. vm_compute. reflexivity. Qed.
Theorem C48_pow_partial : forall (A : arith) (env : text -> option A) (e1 e2 : expr) (txt : text) (a b : A),
  expr_ok e1 -> expr_ok e2 -> 5 <= level e1 -> 5 <= level e2 ->
  denote A env e1 = Some a -> denote A env e2 = Some b ->
  spells (SPow :: par (write false e1 ++ [SComma] ++ write false e2)) txt ->
  expression_value A env txt = Ok (a_pow A a b).
Proof.
  intros A env e1 e2 txt a b H1 H2 L1 L2 D1 D2 Hs. apply (meaning A env (EPow e1 e2)).
  - split; assumption.
  - apply Nat.leb_le in L1, L2. cbn [write]. rewrite L1, L2. exact Hs.
  - cbn [denote]. rewrite D1, D2. reflexivity.
Qed.
Print Assumptions C48_pow_partial.
Example C48_pow_atoms : value (x_is 3) "pow(-x, (1+1))" = Ok 9%Q.
Proof. vm_compute. reflexivity. Qed.

(** C49.  Texts that end in "sqr" make the lexer read past their end; an empty exponent leaves the number
    uninitialised. *)
Theorem C49_safe_refuted : parse (chars "2*sqr") = UB /\ value no_vars "2e" = UB /\ value no_vars "1+3e*2" = UB.
Proof. vm_compute. repeat split. Qed.
(** Every other text is safe (the stacks of the parser are never popped when empty either). *)
Theorem C49_safe_partial : forall (A : arith) (env : text -> option A) (txt : text),
  (forall x, a_fact A x <> UB) ->
  (forall pre, txt <> pre ++ chars "sqr") ->
  exponents_complete txt ->
  expression_value A env txt <> UB.
Proof. exact safe. Qed.
Print Assumptions C49_safe_partial.
Example C49_sample : (forall pre, chars "sqrt(1.5e-3)" <> pre ++ chars "sqr") /\ exponents_complete (chars "sqrt(1.5e-3)").
Proof.
  split.
  - intros pre H. apply (f_equal (@rev ascii)) in H. rewrite rev_app_distr in H. discriminate H.
  - intros pre d rest H Hd. cbn in H.
    do 12 (destruct pre as [|? pre]; cbn in H; [inversion H; subst; try discriminate Hd; cbn; right; split; reflexivity|inversion H; subst; clear H; rename H2 into H || idtac; try (match goal with E : _ = pre ++ _ |- _ => rename E into H end)]).
    destruct pre; discriminate.
Qed.
