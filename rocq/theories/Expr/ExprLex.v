(** Lexing a spelled list of symbols gives their tokens. *)
From Coq Require Import Arith ZArith QArith Qpower Ascii String List Bool Lia.
From Verif Require Import Base.Res Expr.ExprModel Expr.ExprSpec Expr.ExprParse.
Import ListNotations.
Local Open Scope nat_scope.

Definition sym_ok (s : sym) : Prop :=
  match s with SNum l => literal_ok l | SVar s => name_ok s | _ => True end.

Lemma alpha_special c : is_alpha c = true ->
  is_space c = false /\ is_digit c = false /\
  forall p, In p (chars "()|+-*/^!,") -> Ascii.eqb c p = false.
Proof.
  destruct c as [[] [] [] [] [] [] [] []]; intros H; try discriminate H;
    (split; [reflexivity|split; [reflexivity|intros p Hp; cbn in Hp; repeat (destruct Hp as [<-|Hp]; [reflexivity|]); contradiction]]).
Qed.

Lemma prefix_app w s t : prefix w (s ++ t) = true -> prefix w s = false -> Forall (fun c => is_ident c = true) w ->
  exists c r, t = c :: r /\ is_ident c = true.
Proof.
  revert s. induction w as [|a w IH]; intros s H1 H2 H3; [discriminate H2|]. inversion H3; subst.
  destruct s as [|b s]; cbn in H1, H2.
  - destruct t as [|c r]; [discriminate|]. apply andb_true_iff in H1. destruct H1 as [H1 _]. apply Ascii.eqb_eq in H1. subst. eauto.
  - apply andb_true_iff in H1. destruct H1 as [H1 H1']. rewrite H1 in H2. cbn in H2. eapply IH; eauto.
Qed.

Lemma find_none {A} (f : A -> bool) l : (forall x, In x l -> f x = false) -> find f l = None.
Proof. induction l as [|a l IH]; intros H; [reflexivity|]. cbn. rewrite (H a (or_introl eq_refl)). apply IH. intros x Hx. apply H. right. exact Hx. Qed.

Lemma var_loop_ok cs t i : Forall (fun c => is_ident c = true) cs -> i + List.length cs + 1 < 128 ->
  match t with c :: _ => is_ident c = false | [] => True end -> var_loop i (cs ++ t) = (cs, t, false).
Proof.
  revert i. induction cs as [|c cs IH]; intros i Hc Hi Ht; cbn [app].
  - cbn in Hi. destruct t as [|d t]; cbn [var_loop]; destruct (Nat.eqb_spec (i + 1) 128); try lia; [reflexivity|]. rewrite Ht. reflexivity.
  - cbn [List.length] in Hi. inversion Hc; subst. cbn [var_loop]. destruct (Nat.eqb_spec (i + 1) 128); [lia|]. rewrite H1. rewrite IH; [reflexivity|assumption|lia|exact Ht].
Qed.

Lemma reserved_ident w : In w reserved -> Forall (fun c => is_ident c = true) (chars w).
Proof. intros H. cbn in H. repeat (destruct H as [<-|H]; [repeat constructor|]). contradiction. Qed.

Lemma lex_var s t : name_ok s -> match t with c :: _ => is_ident c = false | [] => True end ->
  lex1 (s ++ t) = LTok (TVar s) t false.
Proof.
  intros (Hs & Hl & Hr) Ht. destruct s as [|c r]; [contradiction|]. destruct Hs as [Ha Hi].
  assert (Hp : forall w, In w reserved -> prefix (chars w) ((c :: r) ++ t) = false).
  { intros w Hw. destruct (prefix (chars w) ((c :: r) ++ t)) eqn:E; [|reflexivity].
    destruct (prefix_app _ _ _ E (Hr w Hw) (reserved_ident w Hw)) as (d & u & -> & Hd). congruence. }
  assert (Hfn : find_fn ((c :: r) ++ t) = None).
  { unfold find_fn. rewrite find_none; [reflexivity|]. intros [w f] Hin. cbn [fst]. apply Hp.
    cbn in Hin. repeat (destruct Hin as [E|Hin]; [inversion E; subst; cbn; tauto|]). contradiction. }
  destruct (alpha_special c Ha) as (H1 & H2 & H3).
  pose proof (Hp "pow"%string ltac:(cbn; tauto)) as Hpow. pose proof (Hp "PI"%string ltac:(cbn; tauto)) as Hpi.
  cbn [app] in *. unfold lex1. rewrite H1.
  repeat (rewrite (H3 _) by (cbn; tauto)).
  rewrite Hfn, Hpow, Hpi, H2, Ha. rewrite var_loop_ok; [reflexivity|exact Hi| |exact Ht]. cbn [List.length] in Hl. lia.
Qed.

(** Digits. *)
Lemma digit_char_ok d : d < 10 -> is_digit (digit_char d) = true /\ is_ident (digit_char d) = true /\ digit_val (digit_char d) = Z.of_nat d.
Proof. intros H. do 10 (destruct d as [|d]; [repeat split|]). lia. Qed.

Lemma digits_forall ds : digits_ok ds -> Forall (fun c => is_digit c = true) (map digit_char ds).
Proof. intros H. induction H; cbn; constructor; [apply digit_char_ok; assumption|assumption]. Qed.

Lemma num_loop_digits cs : forall i rest, Forall (fun c => is_digit c || Ascii.eqb c "."%char = true) cs -> i + List.length cs < 127 ->
  num_loop i (cs ++ rest) = let '(cs', r, e) := num_loop (i + List.length cs) rest in (cs ++ cs', r, e).
Proof.
  induction cs as [|c cs IH]; intros i rest Hc Hi; cbn [app List.length].
  - rewrite Nat.add_0_r. destruct (num_loop i rest) as [[cs' r] e]. reflexivity.
  - inversion Hc; subst. cbn [List.length] in Hi. cbn [num_loop]. destruct (Nat.eqb_spec (i + 1) 128); [lia|]. rewrite H1.
    rewrite IH by (try assumption; lia). replace (i + 1 + List.length cs) with (i + S (List.length cs)) by lia.
    destruct (num_loop (i + S (List.length cs)) rest) as [[cs' r] e]. reflexivity.
Qed.

Definition stops (t : text) : Prop := match t with c :: _ => is_ident c = false /\ c <> "."%char | [] => True end.
Lemma stops_num t : stops t -> match t with c :: _ => is_digit c = false /\ Ascii.eqb c "."%char = false /\ Ascii.eqb c "e"%char = false | [] => True end.
Proof.
  destruct t as [|c t]; [auto|]. intros [H1 H2]. unfold is_ident in H1. apply orb_false_iff in H1. destruct H1 as [H1 H1'].
  split; [exact H1'|]. split; [apply Ascii.eqb_neq; exact H2|]. apply Ascii.eqb_neq. intros ->. discriminate H1.
Qed.
Lemma num_loop_end i t : stops t -> i < 127 -> num_loop i t = ([], t, false).
Proof.
  intros Hs Hi. apply stops_num in Hs. destruct t as [|c t]; cbn [num_loop]; destruct (Nat.eqb_spec (i + 1) 128); try lia; [reflexivity|].
  destruct Hs as (H1 & H2 & H3). rewrite H1, H2, H3. reflexivity.
Qed.

Definition exp_text (x : option (option bool * list nat)) : text :=
  match x with
  | None => []
  | Some (sg, x) => "e"%char :: match sg with None => [] | Some true => ["-"%char] | Some false => ["+"%char] end ++ map digit_char x
  end.
Definition frac_text (f : option (list nat)) : text := match f with None => [] | Some f => "."%char :: map digit_char f end.
Lemma literal_text_eq l : literal_text l = map digit_char (l_int l) ++ frac_text (l_frac l) ++ exp_text (l_exp l).
Proof. destruct l as [i [f|] [[sg x]|]]; reflexivity. Qed.

Lemma num_loop_exp x t i : match x with None => True | Some (_, d) => d <> [] /\ digits_ok d end -> stops t -> i + List.length (exp_text x) < 127 ->
  num_loop i (exp_text x ++ t) = (exp_text x, t, false).
Proof.
  intros Hx Ht Hi. destruct x as [[sg d]|]; cbn [exp_text].
  2: { cbn in Hi. apply num_loop_end; [exact Ht|lia]. }
  destruct Hx as [Hne Hd]. cbn [exp_text List.length] in Hi. rewrite app_length, map_length in Hi.
  cbn [app]. cbn [num_loop]. destruct (Nat.eqb_spec (i + 1) 128); [lia|].
  change (is_digit "e") with false. change (Ascii.eqb "e" ".") with false. change (Ascii.eqb "e" "e") with true. cbn [orb].
  destruct (Nat.eqb_spec (i + 2) 128); [destruct d; [congruence|cbn in Hi; lia]|].
  rewrite <- app_assoc.
  destruct sg as [[]|]; cbn [app List.length] in *.
  - change (is_digit "-" || Ascii.eqb "-" "+" || Ascii.eqb "-" "-") with true. cbv iota.
    rewrite num_loop_digits by (try (eapply Forall_impl; [|apply digits_forall; exact Hd]; intros a Ha; cbv beta in *; rewrite Ha; reflexivity); rewrite map_length; lia).
    rewrite num_loop_end by (try exact Ht; rewrite map_length; lia). rewrite app_nil_r. reflexivity.
  - change (is_digit "+" || Ascii.eqb "+" "+" || Ascii.eqb "+" "-") with true. cbv iota.
    rewrite num_loop_digits by (try (eapply Forall_impl; [|apply digits_forall; exact Hd]; intros a Ha; cbv beta in *; rewrite Ha; reflexivity); rewrite map_length; lia).
    rewrite num_loop_end by (try exact Ht; rewrite map_length; lia). rewrite app_nil_r. reflexivity.
  - destruct d as [|a d]; [congruence|]. cbn [map app List.length] in *. inversion Hd; subst.
    rewrite (proj1 (digit_char_ok a H1)). cbn [orb].
    rewrite num_loop_digits by (try (eapply Forall_impl; [|apply digits_forall; exact H2]; intros z Ha; cbv beta in *; rewrite Ha; reflexivity); rewrite map_length; lia).
    rewrite num_loop_end by (try exact Ht; rewrite map_length; lia). rewrite app_nil_r. reflexivity.
Qed.

Lemma lex_num l t : literal_ok l -> List.length (literal_text l) < 127 -> stops t ->
  lex1 (literal_text l ++ t) = LTok (TNum (scan (literal_text l))) t false.
Proof.
  intros (Hne & Hi & Hf & Hx) Hlen Ht. rewrite literal_text_eq in *. destruct (l_int l) as [|d ds]; [congruence|]. inversion Hi; subst.
  cbn [map app]. rewrite !app_length in Hlen. cbn [map List.length] in Hlen.
  assert (E : forall r, lex1 (digit_char d :: r) = let '(cs, r', e) := num_loop 1 r in LTok (TNum (scan (digit_char d :: cs))) r' e).
  { intros r. do 10 (destruct d as [|d]; [reflexivity|]). lia. }
  rewrite E. rewrite <- !app_assoc.
  rewrite num_loop_digits by (try (eapply Forall_impl; [|apply digits_forall; exact H2]; intros z Ha; cbv beta in *; rewrite Ha; reflexivity); lia).
  set (i := 1 + List.length (map digit_char ds)) in *.
  assert (Ef : num_loop i (frac_text (l_frac l) ++ exp_text (l_exp l) ++ t) = (frac_text (l_frac l) ++ exp_text (l_exp l), t, false)).
  { destruct (l_frac l) as [f|]; cbn [frac_text] in *.
    - rewrite num_loop_digits.
      + rewrite num_loop_exp by (try assumption; unfold i; lia). reflexivity.
      + constructor; [reflexivity|]. eapply Forall_impl; [|apply digits_forall; exact Hf]; intros z Ha; cbv beta in *; rewrite Ha; reflexivity.
      + unfold i. lia.
    - cbn [app]. apply num_loop_exp; try assumption. }
  rewrite Ef. reflexivity.
Qed.

Lemma lex_sym s t : sym_ok s -> not_run_on s t -> lex1 (sym_text s ++ t) = LTok (tok_of s) t false.
Proof.
  intros Hs Hn. destruct s; try reflexivity.
  - destruct f; reflexivity.
  - destruct Hn as [H1 H2]. apply lex_num; assumption.
  - apply lex_var; assumption.
Qed.

Lemma sym_text_nonempty s : sym_ok s -> sym_text s <> [].
Proof.
  intros H E. destruct s; cbn [sym_text] in E; try discriminate.
  - destruct f; discriminate.
  - destruct H as [H _]. rewrite literal_text_eq in E. destruct (l_int l); [congruence|discriminate].
  - subst. destruct H as [H _]. exact H.
Qed.

Lemma err_false s : mkP (p_zip s) (p_prev s) (p_begin s) (p_nP s) (p_nB s) (p_openP s) (p_openB s) (p_two s) (p_err s || false) = s.
Proof. destruct s. cbn. rewrite orb_false_r. reflexivity. Qed.

Lemma lex_space c t : is_space c = true -> lex1 (c :: t) = LSkip t.
Proof. intros H. unfold lex1. rewrite H. reflexivity. Qed.

Lemma parse_spells l t : spells l t -> Forall sym_ok l -> forall fuel s s', List.length t < fuel -> run (map tok_of l) s = Ok s' ->
  parse_loop fuel t s = finish s'.
Proof.
  induction 1 as [|l c t Hc H IH|x l t Hn H IH]; intros Hok fuel s s' Hf Hr.
  - destruct fuel as [|f]; [cbn in Hf; lia|]. cbn in *. inversion Hr. reflexivity.
  - destruct fuel as [|f]; [lia|]. cbn [parse_loop]. rewrite lex_space by exact Hc. apply IH; [exact Hok|cbn in Hf; lia|exact Hr].
  - destruct fuel as [|f]; [lia|]. inversion Hok; subst. cbn [parse_loop]. rewrite lex_sym by assumption.
    rewrite err_false. cbn [map run] in Hr. destruct (step s (tok_of x)) as [s1| |]; try discriminate. cbn [rbind] in *.
    apply IH; [assumption| |exact Hr]. rewrite app_length in Hf. pose proof (sym_text_nonempty x H2) as Hx. destruct (sym_text x); [congruence|]. cbn in Hf. lia.
Qed.

(** ---- The value of a literal ---- *)
Lemma scan_digits_ok ds : forall acc rest, digits_ok ds -> match rest with c :: _ => is_digit c = false | [] => True end ->
  scan_digits acc (map digit_char ds ++ rest) = (fold_left (fun a d => (a * 10 + Z.of_nat d)%Z) ds acc, List.length ds, rest).
Proof.
  induction ds as [|d ds IH]; intros acc rest Hd Hr; cbn [map app fold_left List.length].
  - destruct rest as [|c r]; [reflexivity|]. cbn. rewrite Hr. reflexivity.
  - inversion Hd; subst. destruct (digit_char_ok d H1) as (E1 & _ & E2). cbn [scan_digits]. rewrite E1, E2. rewrite IH by assumption. reflexivity.
Qed.

Lemma decimal_acc ds : forall a, fold_left (fun a d => (a * 10 + Z.of_nat d)%Z) ds a = (a * 10 ^ Z.of_nat (List.length ds) + decimal ds)%Z.
Proof.
  unfold decimal. induction ds as [|d ds IH]; intros a; cbn [fold_left List.length].
  - cbn. lia.
  - rewrite IH. rewrite (IH (0 * 10 + Z.of_nat d)%Z). rewrite Nat2Z.inj_succ, Z.pow_succ_r by lia. ring.
Qed.

Lemma pow10_spec k : (inject_Z (10 ^ Z.of_nat k) * pow10 (- Z.of_nat k) == 1)%Q.
Proof.
  unfold pow10.
  assert (E : (inject_Z (10 ^ Z.of_nat k) == Qpower (10 # 1) (Z.of_nat k))%Q) by (rewrite Zpower_Qpower by lia; reflexivity).
  rewrite E. rewrite <- Qpower_plus by discriminate. rewrite Z.add_opp_diag_r. reflexivity.
Qed.

Lemma scan_literal l : literal_ok l -> exists q, scan (literal_text l) = NQ q /\ (q == literal_value l)%Q.
Proof.
  intros (Hne & Hi & Hf & Hx). rewrite literal_text_eq. unfold scan.
  assert (Hstart : match frac_text (l_frac l) ++ exp_text (l_exp l) with c :: _ => is_digit c = false | [] => True end).
  { destruct (l_frac l); cbn; [reflexivity|]. destruct (l_exp l) as [[sg x]|]; cbn; [reflexivity|exact I]. }
  rewrite scan_digits_ok by assumption.
  set (f := match l_frac l with None => [] | Some f => f end).
  assert (Hm : scan_frac (fold_left (fun a d => (a * 10 + Z.of_nat d)%Z) (l_int l) 0%Z) (frac_text (l_frac l) ++ exp_text (l_exp l))
                = ((decimal (l_int l) * 10 ^ Z.of_nat (List.length f) + decimal f)%Z, List.length f, exp_text (l_exp l))).
  { unfold f, scan_frac. destruct (l_frac l) as [g|]; cbn [frac_text app].
    - rewrite Ascii.eqb_refl. rewrite scan_digits_ok; [|exact Hf|destruct (l_exp l) as [[sg x]|]; cbn; [reflexivity|exact I]].
      rewrite (decimal_acc g). reflexivity.
    - cbn [List.length decimal fold_left Z.of_nat Z.pow]. replace (decimal (l_int l) * 1 + 0)%Z with (decimal (l_int l)) by lia.
      destruct (l_exp l) as [[sg x]|]; reflexivity. }
  cbv beta iota zeta. rewrite Hm. clear Hm.
  set (k := List.length f). set (I := decimal (l_int l)). set (D := decimal f).
  assert (Hmant : (inject_Z (I * 10 ^ Z.of_nat k + D) * pow10 (- Z.of_nat k) == inject_Z I + inject_Z D * Qpower (10 # 1) (- Z.of_nat k))%Q).
  { rewrite inject_Z_plus, inject_Z_mult. rewrite Qmult_plus_distr_l. rewrite <- Qmult_assoc, pow10_spec, Qmult_1_r. reflexivity. }
  unfold literal_value. fold f k I D.
  destruct (l_exp l) as [[sg x]|]; cbn [exp_text].
  - rewrite Ascii.eqb_refl. destruct Hx as [Hx1 Hx2].
    assert (He : exists n, scan_digits 0 (map digit_char x) = (decimal x, S n, [])).
    { exists (pred (List.length x)). rewrite <- (app_nil_r (map digit_char x)). rewrite scan_digits_ok by (auto; exact I).
      destruct x; [congruence|]. reflexivity. }
    destruct He as [n He].
    destruct sg as [[]|]; cbn [app].
    + change (Ascii.eqb "-" "-") with true. cbv iota. rewrite He. eexists. split; [reflexivity|]. rewrite Hmant. reflexivity.
    + change (Ascii.eqb "+" "-") with false. change (Ascii.eqb "+" "+") with true. cbv iota. rewrite He. eexists. split; [reflexivity|]. rewrite Hmant. reflexivity.
    + assert (Hd : match map digit_char x with s :: r2 => if Ascii.eqb s "-" then (true, r2) else if Ascii.eqb s "+" then (false, r2) else (false, map digit_char x) | [] => (false, map digit_char x) end = (false, map digit_char x)).
      { destruct x as [|a x]; [congruence|]. inversion Hx2; subst. cbn [map]. do 10 (destruct a as [|a]; [reflexivity|]). lia. }
      rewrite Hd, He. eexists. split; [reflexivity|]. rewrite Hmant. reflexivity.
  - eexists. split; [reflexivity|exact Hmant].
Qed.
