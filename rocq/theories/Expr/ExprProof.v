(** Written expressions evaluate to their meaning; accepted texts are complete; memory safety. *)
From Coq Require Import Arith ZArith QArith Ascii String List Bool Lia.
From Verif Require Import Base.Res Expr.ExprModel Expr.ExprSpec Expr.ExprParse Expr.ExprLex Expr.ExprComplete.
Import ListNotations.
Local Open Scope nat_scope.

(** ---- Meaning ---- *)
Lemma par_ok l : Forall sym_ok l -> Forall sym_ok (par l).
Proof. intros H. constructor; [exact I|]. apply Forall_app. split; [exact H|]. constructor; [exact I|constructor]. Qed.
Lemma write_ok e : expr_ok e -> forall b, Forall sym_ok (write b e).
Proof.
  induction e as [l| |v|e IH|neg e IH|o e1 IH1 e2 IH2|e1 IH1 e2 IH2|e IH|f e IH|e IH|e1 IH1 e2 IH2]; cbn [expr_ok]; intros H b.
  - constructor; [exact H|constructor].
  - constructor; [exact I|constructor].
  - constructor; [exact H|constructor].
  - cbn [write]. apply par_ok, IH, H.
  - cbn [write]. constructor; [destruct neg; exact I|]. destruct (Nat.leb _ _); [apply IH, H|apply par_ok, IH, H].
  - destruct H as [H1 H2].
    assert (G : forall n e, (forall b, Forall sym_ok (write b e)) -> Forall sym_ok (if Nat.leb n (level e) then write b e else par (write false e))).
    { intros n e He. destruct (Nat.leb _ _); [apply He|apply par_ok, He]. }
    destruct o; cbn [write]; apply Forall_app; (split; [apply G, IH1, H1|]); constructor; try exact I; apply G, IH2, H2.
  - destruct H as [H1 H2]. cbn [write]. apply Forall_app. split; apply par_ok; [apply IH1, H1|apply IH2, H2].
  - cbn [write]. apply Forall_app. split; [|constructor; [exact I|constructor]]. destruct (Nat.leb _ _); [apply IH, H|apply par_ok, IH, H].
  - cbn [write]. constructor; [exact I|]. apply par_ok, IH, H.
  - cbn [write]. assert (G : Forall sym_ok (SBar :: write true e ++ [SBar])).
    { constructor; [exact I|]. apply Forall_app. split; [apply IH, H|]. constructor; [exact I|constructor]. }
    destruct b; [apply par_ok, G|exact G].
  - destruct H as [H1 H2]. cbn [write]. constructor; [exact I|]. apply par_ok. apply Forall_app. split.
    + destruct (Nat.leb _ _); [apply IH1, H1|apply par_ok, IH1, H1].
    + constructor; [exact I|]. destruct (Nat.leb _ _); [apply IH2, H2|apply par_ok, IH2, H2].
Qed.

Lemma tree_of_nonnull e : isnull (tree_of e) = false.
Proof. induction e; cbn; auto. Qed.
Lemma validate_tree_of e : validate (tree_of e) = Ok tt.
Proof.
  induction e; cbn [tree_of validate]; rewrite ?IHe, ?IHe1, ?IHe2; cbn [rbind]; rewrite ?tree_of_nonnull; try reflexivity.
  - destruct neg; cbn [isnull]; rewrite ?tree_of_nonnull; reflexivity.
  - destruct o; cbn [binid]; rewrite ?tree_of_nonnull; reflexivity.
Qed.

Lemma eval_tree_of A env e : forall v, expr_ok e -> denote A env e = Some v -> eval A env (tree_of e) = Ok v.
Proof.
  induction e as [l| |s|e IH|neg e IH|o e1 IH1 e2 IH2|e1 IH1 e2 IH2|e IH|f e IH|e IH|e1 IH1 e2 IH2]; intros v Hok H; cbn in H, Hok.
  - destruct (scan_literal l Hok) as (q & E1 & E2). cbn. rewrite E1. inversion H. rewrite (Qred_complete _ _ E2). reflexivity.
  - cbn. inversion H. reflexivity.
  - cbn. rewrite H. reflexivity.
  - cbn. apply IH; assumption.
  - destruct (denote A env e) as [u|]; [|discriminate]. cbn [tree_of eval]. cbn [rbind]. rewrite (IH u Hok eq_refl). cbn in *. destruct neg; inversion H; reflexivity.
  - destruct Hok as [K1 K2].
    destruct o; destruct (denote A env e1) as [u1|]; try discriminate; destruct (denote A env e2) as [u2|]; try discriminate; cbn [tree_of eval binid];
      rewrite (IH1 u1 K1 eq_refl), (IH2 u2 K2 eq_refl); cbn; try (inversion H; reflexivity).
    destruct (a_zero A u2); [discriminate|]. inversion H; reflexivity.
  - destruct Hok as [K1 K2]. destruct (denote A env e1) as [u1|]; try discriminate; destruct (denote A env e2) as [u2|]; try discriminate. cbn [tree_of eval].
    rewrite (IH1 u1 K1 eq_refl), (IH2 u2 K2 eq_refl). cbn. inversion H; reflexivity.
  - destruct (denote A env e) as [u|]; [|discriminate]. cbn [tree_of eval]. rewrite (IH u Hok eq_refl). cbn. destruct (a_fact A u); inversion H; reflexivity.
  - destruct (denote A env e) as [u|]; [|discriminate]. cbn [tree_of eval]. cbn [rbind]. rewrite (IH u Hok eq_refl). cbn in *. inversion H; reflexivity.
  - destruct (denote A env e) as [u|]; [|discriminate]. cbn [tree_of eval]. cbn [rbind]. rewrite (IH u Hok eq_refl). cbn in *. inversion H; reflexivity.
  - destruct Hok as [K1 K2]. destruct (denote A env e1) as [u1|]; try discriminate; destruct (denote A env e2) as [u2|]; try discriminate. cbn [tree_of eval].
    rewrite (IH1 u1 K1 eq_refl), (IH2 u2 K2 eq_refl). cbn. inversion H; reflexivity.
Qed.

Theorem parse_text e txt : expr_ok e -> spells (write false e) txt -> parse txt = Ok (tree_of e).
Proof.
  intros He Hs. destruct (parse_write e) as (s & R1 & R2). unfold parse.
  rewrite (parse_spells _ _ Hs (write_ok e He false) _ _ s); [exact R2|lia|exact R1].
Qed.
Theorem meaning A env e txt v : expr_ok e -> spells (write false e) txt -> denote A env e = Some v -> expression_value A env txt = Ok v.
Proof.
  intros He Hs Hd. unfold expression_value. rewrite (parse_text e txt He Hs). cbn [rbind]. rewrite validate_tree_of. cbn [rbind]. apply eval_tree_of; assumption.
Qed.

(** ---- Acceptance ---- *)
Lemma lex_skip t r : lex1 t = LSkip r -> exists c, t = c :: r /\ is_space c = true.
Proof.
  destruct t as [|c t]; cbn [lex1]; [discriminate|]. destruct (is_space c) eqn:E; [intros H; inversion H; eauto|].
  repeat match goal with |- context [if Ascii.eqb ?a ?b then _ else _] => destruct (Ascii.eqb a b); [discriminate|] end.
  destruct (find_fn (c :: t)) as [[]|]; try discriminate; [destruct (skipn 2 t); discriminate|].
  destruct (prefix _ _); [discriminate|]. destruct (Ascii.eqb _ _); [discriminate|]. destruct (prefix _ _); [discriminate|].
  destruct (is_digit c); [destruct (num_loop _ _) as [[? ?] ?]; discriminate|].
  destruct (is_alpha c); [destruct (var_loop _ _) as [[? ?] ?]; discriminate|]. discriminate.
Qed.
Lemma lex_end t : lex1 t = LEnd -> t = [].
Proof.
  destruct t as [|c t]; cbn [lex1]; [reflexivity|]. destruct (is_space c) eqn:E; [discriminate|].
  repeat match goal with |- context [if Ascii.eqb ?a ?b then _ else _] => destruct (Ascii.eqb a b); [discriminate|] end.
  destruct (find_fn (c :: t)) as [[]|]; try discriminate; [destruct (skipn 2 t); discriminate|].
  destruct (prefix _ _); [discriminate|]. destruct (Ascii.eqb _ _); [discriminate|]. destruct (prefix _ _); [discriminate|].
  destruct (is_digit c); [destruct (num_loop _ _) as [[? ?] ?]; discriminate|].
  destruct (is_alpha c); [destruct (var_loop _ _) as [[? ?] ?]; discriminate|]. discriminate.
Qed.

Lemma loop_good fuel : forall t s st two tr, good st two s -> parse_loop fuel t s = Ok tr ->
  exists toks, lexes t toks /\ balanced st toks /\ commas two toks /\ leafok tr /\ tr <> Null.
Proof.
  induction fuel as [|fuel IH]; intros t s st two tr HG E; [discriminate|]. cbn [parse_loop] in E. destruct (lex1 t) as [|r|k r e| |] eqn:El; try discriminate.
  - apply lex_end in El. subst t. destruct (finish_good st two s tr HG E) as (-> & -> & H1 & H2).
    exists []. split; [constructor|]. repeat split; assumption.
  - destruct (lex_skip _ _ El) as (c & -> & Hc). destruct (IH r s st two tr HG E) as (toks & H1 & H2). exists toks. split; [constructor; assumption|exact H2].
  - apply rbind_ok in E. destruct E as (s' & Es & E).
    destruct (step_good st two _ k s' (good_err _ _ _ _ HG) Es) as (st' & two' & G1 & G2 & G3 & _).
    destruct (IH r s' st' two' tr G1 E) as (toks & H1 & H2 & H3 & H4). exists (k :: toks). split; [econstructor; eassumption|]. split; [apply G2, H2|]. split; [apply G3, H3|exact H4].
Qed.
Theorem accepted txt t : parse txt = Ok t -> validate t = Ok tt ->
  complete t /\ exists toks, lexes txt toks /\ balanced [] toks /\ commas 0 toks.
Proof.
  intros Hp Hv. destruct (loop_good _ _ _ _ _ _ good_init Hp) as (toks & H1 & H2 & H3 & H4 & H5).
  split; [apply validate_complete; assumption|]. exists toks. auto.
Qed.

(** ---- Safety ---- *)
Lemma num_loop_split rest : forall i cs r' e, num_loop i rest = (cs, r', e) ->
  rest = cs ++ r' /\ (e = false ->
   match r' with x :: _ => is_digit x = false | [] => True end /\
   (forall p, cs = p ++ ["e"%char] -> match r' with x :: _ => sign_char x = false | [] => True end)).
Proof.
  remember (List.length rest) as n eqn:En. assert (Hn : List.length rest <= n) by lia. clear En. revert rest Hn.
  induction n as [|n IH]; intros rest Hn i cs r' e H.
  - destruct rest as [|c r]; [|cbn in Hn; lia]. cbn in H. destruct (Nat.eqb (i + 1) 128); inversion H; subst; cbn; (split; [reflexivity|]); try discriminate. intros _. split; [exact I|]. intros p Hp. destruct p; discriminate.
  - destruct rest as [|c r].
    { cbn in H. destruct (Nat.eqb (i + 1) 128); inversion H; subst; cbn; (split; [reflexivity|]); try discriminate. intros _. split; [exact I|]. intros p Hp. destruct p; discriminate. }
    cbn in Hn. cbn [num_loop] in H. destruct (Nat.eqb (i + 1) 128); [inversion H; subst; split; [reflexivity|discriminate]|].
    destruct (is_digit c || Ascii.eqb c ".") eqn:Ec.
    + destruct (num_loop (i + 1) r) as [[cs1 r1] e1] eqn:E1. inversion H; subst. destruct (IH r ltac:(lia) _ _ _ _ E1) as [H1 H2]. split; [rewrite H1; reflexivity|].
      intros He. destruct (H2 He) as [H3 H4]. split; [exact H3|]. intros p Hp. destruct p as [|x p]; [|apply (H4 p); inversion Hp; reflexivity].
      inversion Hp; subst. discriminate Ec.
    + destruct (Ascii.eqb c "e") eqn:Ee.
      * apply Ascii.eqb_eq in Ee. subst c. destruct (Nat.eqb (i + 2) 128); [inversion H; subst; split; [reflexivity|discriminate]|].
        destruct r as [|d r1]; [inversion H; subst; split; [reflexivity|]; intros _; split; [exact I|intros; exact I]|].
        destruct (is_digit d || Ascii.eqb d "+" || Ascii.eqb d "-") eqn:Ed.
        -- destruct (num_loop (i + 2) r1) as [[cs1 r2] e1] eqn:E1. inversion H; subst. cbn in Hn. destruct (IH r1 ltac:(lia) _ _ _ _ E1) as [H1 H2]. split; [rewrite H1; reflexivity|].
           intros He. destruct (H2 He) as [H3 H4]. split; [exact H3|]. intros p Hp. destruct p as [|x [|y p]]; [discriminate| |apply (H4 p); inversion Hp; reflexivity].
           inversion Hp; subst. discriminate Ed.
        -- inversion H; subst. split; [reflexivity|]. intros _. apply orb_false_iff in Ed. destruct Ed as [Ed1 Ed2]. apply orb_false_iff in Ed1. destruct Ed1 as [Ed0 Ed1].
           split; [exact Ed0|]. intros _ _. unfold sign_char. rewrite Ed1, Ed2. reflexivity.
      * inversion H; subst. split; [reflexivity|]. intros _. apply orb_false_iff in Ec. split; [apply Ec|]. intros p Hp. destruct p; discriminate.
Qed.

Lemma scan_digits_split t : forall acc v k r, scan_digits acc t = (v, k, r) ->
  exists p, t = p ++ r /\ Forall (fun c => is_digit c = true) p /\ List.length p = k.
Proof.
  induction t as [|c t IH]; intros acc v k r H; cbn in H.
  - inversion H; subst. exists []. repeat split; constructor.
  - destruct (is_digit c) eqn:E.
    + destruct (scan_digits _ t) as [[v' k'] r'] eqn:E'. inversion H; subst. destruct (IH _ _ _ _ E') as (p & -> & H1 & H2). exists (c :: p). split; [reflexivity|]. split; [constructor; assumption|cbn; lia].
    + inversion H; subst. exists []. repeat split; constructor.
Qed.
Lemma last_in A (p : list A) : p <> [] -> exists q x, p = q ++ [x].
Proof. intros H. destruct (exists_last H) as (q & x & E). eauto. Qed.

Lemma scan_number c cs r' pre : is_digit c = true -> exponents_complete (pre ++ (c :: cs) ++ r') ->
  match r' with x :: _ => is_digit x = false | [] => True end ->
  (forall p, cs = p ++ ["e"%char] -> match r' with x :: _ => sign_char x = false | [] => True end) ->
  scan (c :: cs) <> NUninit.
Proof.
  intros Hc Hx Hr He. unfold scan.
  destruct (scan_digits 0 (c :: cs)) as [[v k0] r] eqn:E1. destruct (scan_digits_split _ _ _ _ _ E1) as (p1 & P1 & P2 & P3).
  assert (Hp1 : p1 <> []).
  { intros ->. cbn [app] in P1. subst r. cbn in E1. rewrite Hc in E1. destruct (scan_digits _ cs) as [[a b] d] in E1. cbn in P3. subst k0. discriminate E1. }
  destruct (scan_frac v r) as [[v2 k2] r2] eqn:E2.
  assert (Hf : exists p, c :: cs = p ++ r2 /\ exists q x, p = q ++ [x] /\ is_digit x || Ascii.eqb x "." = true).
  { assert (Hpd : forall p, p <> [] -> Forall (fun c => is_digit c = true) p -> exists q x, p = q ++ [x] /\ is_digit x || Ascii.eqb x "." = true).
    { intros p Hp Hd. destruct (last_in _ p Hp) as (q & x & ->). exists q, x. split; [reflexivity|]. apply Forall_app in Hd. destruct Hd as [_ Hd]. inversion Hd; subst. rewrite H1. reflexivity. }
    destruct r as [|c1 r]; cbn in E2.
    - inversion E2; subst. exists p1. split; [exact P1|]. apply Hpd; assumption.
    - destruct (Ascii.eqb c1 ".") eqn:Ec1.
      + destruct (scan_digits_split _ _ _ _ _ E2) as (p2 & Q1 & Q2 & Q3). exists (p1 ++ c1 :: p2). split; [rewrite P1, Q1, <- app_assoc; reflexivity|].
        destruct p2 as [|y p2]; [exists p1, c1; split; [reflexivity|]; rewrite Ec1; apply orb_true_r|].
        destruct (Hpd (y :: p2)) as (q & x & Eq & Hq); [discriminate|exact Q2|]. exists (p1 ++ c1 :: q), x. split; [rewrite Eq, <- app_assoc; reflexivity|exact Hq].
      + inversion E2; subst. exists p1. split; [exact P1|]. apply Hpd; assumption. }
  destruct Hf as (p & Ep & q & x & Eq & Hq).
  destruct r2 as [|d r1]; [discriminate|]. destruct (Ascii.eqb d "e") eqn:Ed; [|discriminate]. apply Ascii.eqb_eq in Ed. subst d.
  assert (Hr1 : exists y z, r1 = y :: z /\ (is_digit y = true \/ sign_char y = true /\ match z with w :: _ => is_digit w = true | [] => False end)).
  { specialize (Hx (pre ++ q) x (r1 ++ r')). assert (Hq' := Hx). clear Hx.
    assert (Et : pre ++ (c :: cs) ++ r' = (pre ++ q) ++ x :: "e"%char :: r1 ++ r').
    { rewrite Ep, Eq, <- !app_assoc. reflexivity. }
    specialize (Hq' Et Hq).
    assert (Hcs : exists p', cs = p' ++ "e"%char :: r1).
    { rewrite Eq in Ep. destruct q as [|q0 q]; cbn in Ep; inversion Ep; subst; [exists []; reflexivity|]. exists (q ++ [x]). reflexivity. }
    destruct Hcs as (p' & Hcs).
    destruct r1 as [|y r1]; cbn [app] in Hq'.
    - exfalso. specialize (He p' Hcs). destruct r' as [|x' r']; [exact Hq'|]. destruct Hq' as [H|[H _]]; congruence.
    - exists y, r1. split; [reflexivity|]. destruct Hq' as [H|[H1 H2]]; [left; exact H|right]. split; [exact H1|].
      destruct r1 as [|w r1]; [|exact H2]. cbn in H2. destruct r' as [|x' r']; [exact H2|congruence]. }
  destruct Hr1 as (y & z & -> & Hy).
  assert (Hdig : forall w l, is_digit w = true -> exists a b d, scan_digits 0 (w :: l) = (a, S b, d)).
  { intros w l Hw. cbn. rewrite Hw. destruct (scan_digits _ l) as [[a b] d0]. eauto. }
  assert (Hnosign : is_digit y = true -> Ascii.eqb y "-" = false /\ Ascii.eqb y "+" = false).
  { intros H. split; apply Ascii.eqb_neq; intros ->; discriminate H. }
  destruct Hy as [Hy|[Hy Hz]].
  - destruct (Hnosign Hy) as [-> ->]. destruct (Hdig y z Hy) as (a & b & d0 & ->). discriminate.
  - destruct z as [|w z]; [contradiction|]. destruct (Hdig w z Hz) as (a & b & d0 & Ew).
    unfold sign_char in Hy. destruct (Ascii.eqb y "-"); [rewrite Ew; discriminate|]. rewrite orb_false_r in Hy. rewrite Hy, Ew. discriminate.
Qed.

Lemma prefix_split w t : prefix w t = true -> exists r, t = w ++ r.
Proof. revert t. induction w as [|a w IH]; intros t H; [exists t; reflexivity|]. destruct t as [|b t]; [discriminate|]. cbn in H. apply andb_true_iff in H. destruct H as [H1 H2]. apply Ascii.eqb_eq in H1. subst b. destruct (IH t H2) as (r & ->). exists r. reflexivity. Qed.
Lemma var_loop_split rest : forall i cs r' e, var_loop i rest = (cs, r', e) -> rest = cs ++ r'.
Proof.
  induction rest as [|c r IH]; intros i cs r' e H; cbn [var_loop] in H; destruct (Nat.eqb (i + 1) 128); try (inversion H; subst; reflexivity).
  destruct (is_ident c); [|inversion H; subst; reflexivity]. destruct (var_loop (i + 1) r) as [[cs1 r1] e1] eqn:E1. inversion H; subst. rewrite (IH _ _ _ _ E1) at 1. reflexivity.
Qed.

Definition num_safe (k : tok) : Prop := k <> TNum NUninit.
Lemma find_fn_split t f : find_fn t = Some f -> exists a b c r, t = a :: b :: c :: r.
Proof.
  unfold find_fn. destruct (find _ named) as [[w g]|] eqn:E; [|discriminate]. intros _. apply find_some in E. destruct E as [E1 E2]. cbn [fst] in E2. apply prefix_split in E2. destruct E2 as (r & ->).
  cbn in E1. repeat (destruct E1 as [E1|E1]; [inversion E1; subst; cbn; eauto|]). contradiction.
Qed.
Lemma lex_safe t k r e pre : lex1 t = LTok k r e -> (exists p, t = p ++ r) /\ (exponents_complete (pre ++ t) -> e = false -> num_safe k).
Proof.
  destruct t as [|c t]; cbn [lex1]; [discriminate|]. destruct (is_space c) eqn:E; [discriminate|].
  repeat match goal with |- context [if Ascii.eqb ?a ?b then _ else _] => destruct (Ascii.eqb a b);
     [intros H; inversion H; subst; split; [exists [c]; reflexivity|intros _ _; discriminate]|] end.
  destruct (find_fn (c :: t)) as [f|] eqn:Ef.
  { destruct (find_fn_split _ _ Ef) as (x & y & z & u & Eu). inversion Eu; subst x t. cbn [skipn]. intros H.
    destruct f; try (inversion H; subst; split; [exists [c; y; z]; reflexivity|intros _ _; discriminate]).
    destruct u as [|w u]; [discriminate|]. inversion H; subst. split; [exists [c; y; z; w]; reflexivity|intros _ _; discriminate]. }
  destruct (prefix (chars "pow") (c :: t)) eqn:E1.
  { apply prefix_split in E1. destruct E1 as (u & Eu). inversion Eu; subst. cbn. intros H; inversion H; subst. split; [exists (chars "pow"); reflexivity|intros _ _; discriminate]. }
  destruct (Ascii.eqb c ","). { intros H; inversion H; subst. split; [exists [c]; reflexivity|intros _ _; discriminate]. }
  destruct (prefix (chars "PI") (c :: t)) eqn:E2.
  { apply prefix_split in E2. destruct E2 as (u & Eu). inversion Eu; subst. cbn. intros H; inversion H; subst. split; [exists (chars "PI"); reflexivity|intros _ _; discriminate]. }
  destruct (is_digit c) eqn:Ed.
  { destruct (num_loop 1 t) as [[cs r'] e'] eqn:En. intros H; inversion H; subst. destruct (num_loop_split _ _ _ _ _ En) as [H1 H2]. split; [exists (c :: cs); rewrite H1; reflexivity|].
    intros Hx ->. destruct (H2 eq_refl) as [H3 H4]. intros Hk. inversion Hk as [Hk']. revert Hk'. apply (scan_number c cs r pre Ed); [|exact H3|exact H4]. rewrite H1 in Hx. exact Hx. }
  destruct (is_alpha c); [|discriminate]. destruct (var_loop 1 t) as [[cs r'] e'] eqn:En. intros H; inversion H; subst. apply var_loop_split in En. split; [exists (c :: cs); rewrite En; reflexivity|intros _ _; discriminate].
Qed.
Lemma lex_out t : lex1 t = LOut -> t = chars "sqr".
Proof.
  destruct t as [|c t]; cbn [lex1]; [discriminate|]. destruct (is_space c) eqn:E; [discriminate|].
  repeat match goal with |- context [if Ascii.eqb ?a ?b then _ else _] => destruct (Ascii.eqb a b); [discriminate|] end.
  destruct (find_fn (c :: t)) as [f|] eqn:Ef.
  - unfold find_fn in Ef. destruct (find _ named) as [[w g]|] eqn:Ew; [|discriminate]. cbn in Ef. inversion Ef; subst g. apply find_some in Ew. destruct Ew as [Ew1 Ew2]. cbn [fst] in Ew2.
    destruct f; try discriminate. apply prefix_split in Ew2. destruct Ew2 as (u & Eu).
    assert (w = "sqr"%string). { cbn in Ew1. repeat (destruct Ew1 as [Ew1|Ew1]; [inversion Ew1; reflexivity|]). contradiction. }
    subst w. cbn in Eu. inversion Eu; subst. cbn [skipn]. destruct u; [reflexivity|discriminate].
  - destruct (prefix _ _); [discriminate|]. destruct (Ascii.eqb _ _); [discriminate|]. destruct (prefix _ _); [discriminate|].
    destruct (is_digit c); [destruct (num_loop _ _) as [[? ?] ?]; discriminate|].
    destruct (is_alpha c); [destruct (var_loop _ _) as [[? ?] ?]; discriminate|]. discriminate.
Qed.

Lemma loop_safe fuel : forall t s st two pre, good st two s -> (forall p, pre ++ t <> p ++ chars "sqr") -> parse_loop fuel t s <> UB.
Proof.
  induction fuel as [|fuel IH]; intros t s st two pre HG Ht; [discriminate|]. cbn [parse_loop]. destruct (lex1 t) as [|r|k r e| |] eqn:El; try discriminate.
  - unfold finish. destruct (_ || _); [discriminate|]. destruct (plug _ _); discriminate.
  - destruct (lex_skip _ _ El) as (c & -> & Hc). apply (IH r s st two (pre ++ [c]) HG). intros p. rewrite <- app_assoc. apply Ht.
  - pose proof (step_no_ub st two _ k (good_err _ _ _ (p_err s || e) HG)) as Hu.
    destruct (step _ k) as [s'| |] eqn:Es; cbn [rbind]; try discriminate; [|congruence].
    destruct (step_good st two _ k s' (good_err _ _ _ _ HG) Es) as (st' & two' & G1 & _).
    destruct (lex_safe _ _ _ _ [] El) as [(p' & Ep) _]. apply (IH r s' st' two' (pre ++ p') G1). intros p. rewrite <- app_assoc, <- Ep. apply Ht.
  - apply lex_out in El. subst t. exfalso. exact (Ht pre eq_refl).
Qed.

(** Numbers in the tree. *)
Fixpoint tsafe (t : tree) : Prop := match t with Null => True | Node l id r => tsafe l /\ tsafe r /\ id <> Num NUninit end.
Definition fsafe (G : frame) : Prop := tsafe (f_left G) /\ f_id G <> Num NUninit.
Definition zsafe (z : zip) : Prop := Forall fsafe (fst z) /\ tsafe (snd z).
Lemma climb_safe stop stk : forall t, Forall fsafe stk -> tsafe t -> zsafe (climb stop stk t).
Proof.
  induction stk as [|F stk IH]; intros t Hf Ht; cbn; [split; assumption|]. destruct (stop (f_prec F)); [split; assumption|]. inversion Hf; subst. apply IH; [assumption|]. cbn. destruct H1. auto.
Qed.
Lemma insert_safe z id p i z' : zsafe z -> id <> Num NUninit -> insert z id p i = Ok z' -> zsafe z'.
Proof.
  intros Hz Hid E. unfold insert in E.
  assert (Hc : zsafe (match i with SkipClimbUp => z | RightAssoc => climb (fun q => Nat.leb q p) (fst z) (snd z) | LeftAssoc => climb (fun q => Nat.ltb q p) (fst z) (snd z) end)).
  { destruct i; [exact Hz|apply climb_safe; apply Hz|apply climb_safe; apply Hz]. }
  destruct (match i with SkipClimbUp => z | RightAssoc => _ | LeftAssoc => _ end) as [stk t]. destruct Hc as [C1 C2]. cbn in C1, C2.
  destruct stk as [|F rest]; [discriminate|]. inversion C1 as [|? ? HF Hrest]; subst.
  destruct id; try (inversion E; subst; split; [constructor; [split; [exact C2|exact Hid]|exact C1]|exact I]).
  - destruct rest; inversion E; subst. split; [exact Hrest|exact C2].
  - inversion E; subst. split; [exact Hrest|]. cbn. destruct HF. repeat split; auto. discriminate.
Qed.
Lemma add_safe id p i s s' : zsafe (p_zip s) -> id <> Num NUninit -> add_node id p i s = Ok s' -> zsafe (p_zip s') /\ p_err s' = p_err s.
Proof.
  intros Hz Hid E. unfold add_node in E. apply rbind_ok in E. destruct E as (s1 & E1 & E).
  assert (H1 : zsafe (p_zip s1) /\ p_err s1 = p_err s).
  { unfold implicit_mult in E1. destruct id; try (inversion E1; subst; auto; fail). destruct (p_prev s); try (inversion E1; subst; auto; fail).
    apply rbind_ok in E1. destruct E1 as (z & Ez & E1). inversion E1; subst. split; [|reflexivity]. cbn. apply (insert_safe _ _ _ _ _ Hz) in Ez; [exact Ez|discriminate]. }
  destruct (_ && _); [discriminate|]. destruct (_ && _); [discriminate|]. apply rbind_ok in E. destruct E as (z & Ez & E).
  apply (insert_safe _ _ _ _ _ (proj1 H1) Hid) in Ez. destruct (fst z); [discriminate|]. inversion E; subst. cbn. split; [exact Ez|apply H1].
Qed.
Lemma step_safe s k s' : zsafe (p_zip s) -> num_safe k -> step s k = Ok s' -> zsafe (p_zip s') /\ p_err s' = p_err s.
Proof.
  intros Hz Hk E. destruct k; cbn [step] in E.
  - destruct (p_nP s); [discriminate|]. apply add_safe in E; [exact E|exact Hz|discriminate].
  - destruct (p_nP s) as [|[|n] l]; [discriminate|destruct (p_nB s); discriminate|]. destruct (p_nB s) as [|[|m] l']; try discriminate. destruct l' as [|b l']; [discriminate|]. apply add_safe in E; [exact E|exact Hz|discriminate].
  - destruct (p_nB s) as [|b l]; [discriminate|]. destruct (negb _); [apply add_safe in E; [exact E|exact Hz|discriminate]|]. destruct b; [discriminate|]. destruct (p_nP s) as [|[|n] l']; try discriminate. apply add_safe in E; [exact E|exact Hz|discriminate].
  - destruct (valueish _); (apply add_safe in E; [exact E|exact Hz|discriminate]).
  - destruct (valueish _); (apply add_safe in E; [exact E|exact Hz|discriminate]).
  - apply add_safe in E; [exact E|exact Hz|discriminate].
  - apply add_safe in E; [exact E|exact Hz|discriminate].
  - apply add_safe in E; [exact E|exact Hz|discriminate].
  - apply add_safe in E; [exact E|exact Hz|discriminate].
  - apply add_safe in E; [exact E|exact Hz|discriminate].
  - inversion E; subst. split; [exact Hz|reflexivity].
  - destruct (p_two s); [discriminate|]. apply add_safe in E; [exact E|exact Hz|discriminate].
  - apply add_safe in E; [exact E|exact Hz|]. intros H. apply Hk. congruence.
  - apply add_safe in E; [exact E|exact Hz|discriminate].
Qed.
Lemma plug_safe stk : forall t, Forall fsafe stk -> tsafe t -> tsafe (plug stk t).
Proof.
  induction stk as [|F stk IH]; intros t Hf Ht; [exact Ht|]. inversion Hf; subst. cbn [plug]. destruct stk; [exact Ht|]. apply IH; [assumption|]. destruct H1. cbn. auto.
Qed.
Lemma step_err s k s' : step s k = Ok s' -> p_err s' = p_err s.
Proof.
  assert (Ha : forall id p i s s', add_node id p i s = Ok s' -> p_err s' = p_err s).
  { intros id p i s0 s0' E. unfold add_node in E. apply rbind_ok in E. destruct E as (s1 & E1 & E).
    assert (H1 : p_err s1 = p_err s0).
    { unfold implicit_mult in E1. destruct id; try (inversion E1; subst; auto; fail). destruct (p_prev s0); try (inversion E1; subst; auto; fail).
      apply rbind_ok in E1. destruct E1 as (z & Ez & E1). inversion E1; subst. reflexivity. }
    destruct (_ && _); [discriminate|]. destruct (_ && _); [discriminate|]. apply rbind_ok in E. destruct E as (z & Ez & E). destruct (fst z); [discriminate|]. inversion E; subst. exact H1. }
  intros E. destruct k; cbn [step] in E.
  - destruct (p_nP s); [discriminate|]. apply Ha in E; exact E.
  - destruct (p_nP s) as [|[|n] l]; [discriminate|destruct (p_nB s); discriminate|]. destruct (p_nB s) as [|[|m] l']; try discriminate. destruct l' as [|b l']; [discriminate|]. apply Ha in E; exact E.
  - destruct (p_nB s) as [|b l]; [discriminate|]. destruct (negb _); [apply Ha in E; exact E|]. destruct b; [discriminate|]. destruct (p_nP s) as [|[|n] l']; try discriminate. apply Ha in E; exact E.
  - destruct (valueish _); apply Ha in E; exact E.
  - destruct (valueish _); apply Ha in E; exact E.
  - apply Ha in E; exact E.
  - apply Ha in E; exact E.
  - apply Ha in E; exact E.
  - apply Ha in E; exact E.
  - apply Ha in E; exact E.
  - inversion E; subst. reflexivity.
  - destruct (p_two s); [discriminate|]. apply Ha in E; exact E.
  - apply Ha in E; exact E.
  - apply Ha in E; exact E.
Qed.
Lemma loop_err fuel : forall t s tr, p_err s = true -> parse_loop fuel t s <> Ok tr.
Proof.
  induction fuel as [|fuel IH]; intros t s tr He; [discriminate|]. cbn [parse_loop]. destruct (lex1 t) as [|r|k r e| |]; try discriminate.
  - unfold finish. rewrite He. discriminate.
  - apply IH, He.
  - intros E. apply rbind_ok in E. destruct E as (s' & Es & E). revert E. apply IH. rewrite (step_err _ _ _ Es). cbn. rewrite He. reflexivity.
Qed.
Lemma loop_nums fuel : forall t s tr pre, zsafe (p_zip s) -> exponents_complete (pre ++ t) -> parse_loop fuel t s = Ok tr -> tsafe tr.
Proof.
  induction fuel as [|fuel IH]; intros t s tr pre HG Ht E; [discriminate|]. cbn [parse_loop] in E. destruct (lex1 t) as [|r|k r e| |] eqn:El; try discriminate.
  - unfold finish in E. destruct (_ || _); [discriminate|]. pose proof (plug_safe _ _ (proj1 HG) (proj2 HG)) as Hs. destruct (plug _ _); [discriminate|]. inversion E; subst. exact Hs.
  - destruct (lex_skip _ _ El) as (c & -> & Hc). apply (IH r s tr (pre ++ [c]) HG); [|exact E]. rewrite <- app_assoc. exact Ht.
  - apply rbind_ok in E. destruct E as (s' & Es & E). destruct e.
    + exfalso. revert E. apply loop_err. rewrite (step_err _ _ _ Es). cbn. apply orb_true_r.
    + destruct (lex_safe _ _ _ _ pre El) as [(p' & Ep) Hk]. apply step_safe in Es; [|exact HG|exact (Hk Ht eq_refl)].
      apply (IH r s' tr (pre ++ p') (proj1 Es)); [|exact E]. rewrite <- app_assoc, <- Ep. exact Ht.
Qed.
Lemma eval_safe A env t : (forall x, a_fact A x <> UB) -> tsafe t -> eval A env t <> UB.
Proof.
  intros Hf. induction t as [|l IHl id r IHr]; intros Ht; [discriminate|]. destruct Ht as (H1 & H2 & H3). specialize (IHl H1). specialize (IHr H2).
  cbn [eval]. destruct (eval A env l) as [vl| |]; cbn [rbind]; try discriminate; try congruence. destruct (eval A env r) as [vr| |]; cbn [rbind]; try discriminate; try congruence.
  destruct id as [| | | | | | | | | | | | |f|[q| |]|s]; try discriminate; try apply Hf; try congruence; [destruct (a_zero A vr); discriminate|destruct (env s); discriminate].
Qed.
Lemma validate_no_ub t : validate t <> UB.
Proof.
  induction t as [|l IHl id r IHr]; [discriminate|]. cbn [validate]. destruct (validate l) as [[]| |]; cbn [rbind]; try discriminate; try congruence. destruct (validate r) as [[]| |]; cbn [rbind]; try discriminate; try congruence.
  destruct id, l, r; discriminate.
Qed.
Theorem safe A env txt : (forall x, a_fact A x <> UB) -> (forall pre, txt <> pre ++ chars "sqr") -> exponents_complete txt -> expression_value A env txt <> UB.
Proof.
  intros Hf Hs Hx. unfold expression_value. pose proof (loop_safe (S (List.length txt)) txt p_init [] 0 [] good_init Hs) as Hp. fold (parse txt) in Hp.
  destruct (parse txt) as [t| |] eqn:Et; cbn [rbind]; try congruence. pose proof (validate_no_ub t) as Hv. destruct (validate t) as [[]| |]; cbn [rbind]; try congruence.
  apply eval_safe; [exact Hf|]. apply (loop_nums _ txt p_init t []) in Et; [exact Et| |exact Hx]. split; [|exact I]. constructor; [|constructor]. split; [exact I|discriminate].
Qed.

(** Factorials. *)
Local Open Scope Z_scope.
Lemma fact_mono n : forall k, Z.of_nat (fact k) <= Z.of_nat (fact (k + n)).
Proof. intros k. apply Nat2Z.inj_le. apply fact_le. lia. Qed.
Lemma fact_loop_ok n : forall k, Z.of_nat (fact k) <= 2 ^ 63 - 1 ->
  fact_loop n (Z.of_nat k + 1) (Z.of_nat (fact k)) =
  if Z.leb (Z.of_nat (fact (k + n))) (2 ^ 63 - 1) then Ok (Z.of_nat (fact (k + n))) else UB.
Proof.
  induction n as [|n IH]; intros k Hk; cbn [fact_loop].
  - rewrite Nat.add_0_r. apply Z.leb_le in Hk. rewrite Hk. reflexivity.
  - assert (E : Z.of_nat (fact k) * (Z.of_nat k + 1) = Z.of_nat (fact (S k))) by (change (fact (S k)) with (S k * fact k)%nat; rewrite Nat2Z.inj_mul; lia).
    rewrite E. cbv zeta. destruct (Z.leb_spec (Z.of_nat (fact (S k))) (2 ^ 63 - 1)) as [L|L].
    + replace (Z.of_nat k + 1 + 1) with (Z.of_nat (S k) + 1) by lia. rewrite (IH (S k) L). replace (S k + n)%nat with (k + S n)%nat by lia. reflexivity.
    + pose proof (fact_mono n (S k)) as M. replace (S k + n)%nat with (k + S n)%nat in M by lia.
      destruct (Z.leb_spec (Z.of_nat (fact (k + S n))) (2 ^ 63 - 1)); [lia|reflexivity].
Qed.
Theorem factorial_spec n : factorial (Z.of_nat n) = if Z.leb (Z.of_nat (fact n)) (2 ^ 63 - 1) then Ok (Z.of_nat (fact n)) else UB.
Proof. unfold factorial. rewrite Nat2Z.id. exact (fact_loop_ok n 0 ltac:(vm_compute; discriminate)). Qed.
