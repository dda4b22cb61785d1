(** The expression evaluator (src/ExpressionEvaluator.cpp): lexing, parsing, validation and evaluation. *)
From Coq Require Import Arith ZArith QArith Ascii String List Bool.
From Verif Require Import Base.Res.
Import ListNotations.
Local Open Scope nat_scope.

Definition text := list ascii.

(** Node.number (src/ExpressionEvaluator.hpp line 75): a value read by sscanf, M_PI, or never assigned. *)
Inductive num := NQ (q : Q) | NPi | NUninit.
Inductive fn := Sin | Cos | Tan | Exp | Log | Sqrt | Abs.

(** NodeID (src/ExpressionEvaluator.hpp lines 26-58); SIN, COS, TAN, EXPONENTIAL, LOG, SQRT, ABS are [Fun f]. *)
Inductive nid := Empty | OpenP | CloseP | OpenB | CloseB | Pos | Neg | Add | Sub | Mul | Dvd | Pw | Fct
  | Fun (f : fn) | Num (n : num) | Var (s : text).

(** What one pass of the loop of parse_expression reads (lines 526-845). *)
Inductive tok := TOpen | TClose | TBar | TPlus | TMinus | TTimes | TDiv | TCaret | TBang
  | TFn (f : fn) | TPow | TComma | TNum (n : num) | TVar (s : text).

(** ---- Lexing (lines 515-845) ---- *)
Local Open Scope char_scope.
Definition between (a b c : ascii) : bool := Nat.leb (nat_of_ascii a) (nat_of_ascii c) && Nat.leb (nat_of_ascii c) (nat_of_ascii b).
Definition is_digit := between "0" "9".
(** Lines 801-803. *)
Definition is_alpha (c : ascii) : bool := between "a" "z" c || between "A" "Z" c || Ascii.eqb c "_".
(** Lines 825-828. *)
Definition is_ident (c : ascii) : bool := is_alpha c || is_digit c.
(** Line 533. *)
Definition is_space (c : ascii) : bool :=
  Ascii.eqb c " " || Ascii.eqb c "009" || Ascii.eqb c "013" || Ascii.eqb c "010".

(** memcmp(expPtr-1, s, n) == 0.  Simplification: memcmp is taken to stop at the first difference, so that it does
    not itself read past the terminating NUL. *)
Fixpoint prefix (s t : text) : bool :=
  match s, t with
  | [], _ => true
  | a :: s', b :: t' => Ascii.eqb a b && prefix s' t'
  | _, [] => false
  end.
Definition chars (s : string) : text := list_ascii_of_string s.

(** The digits loop (lines 741-792): the characters after the first one that are stored, the rest, and whether the
    128 character limit was hit.  [i] counts the characters stored so far. *)
Fixpoint num_loop (i : nat) (rest : text) : text * text * bool :=
  if Nat.eqb (i + 1) 128 then ([], rest, true)
  else match rest with
       | [] => ([], [], false)
       | c :: r =>
         if is_digit c || Ascii.eqb c "." then let '(cs, r', e) := num_loop (i + 1) r in (c :: cs, r', e)
         else if Ascii.eqb c "e" then
           if Nat.eqb (i + 2) 128 then ([c], r, true)
           else match r with
                | d :: r1 => if is_digit d || Ascii.eqb d "+" || Ascii.eqb d "-"
                             then let '(cs, r', e) := num_loop (i + 2) r1 in (c :: d :: cs, r', e)
                             else ([c], r, false)
                | [] => ([c], [], false)
                end
         else ([], rest, false)
       end.

(** sscanf(number, "%lf", &node.number) (line 796) on the stored characters: the longest prefix that has the form of
    a number; an exponent without digits is a matching failure, and the variable is not assigned.
    Simplification: the value is the exact decimal, not rounded to double. *)
Definition digit_val (c : ascii) : Z := (Z.of_nat (nat_of_ascii c) - 48)%Z.
Fixpoint scan_digits (acc : Z) (t : text) : Z * nat * text :=
  match t with
  | c :: r => if is_digit c then let '(v, k, rest) := scan_digits (acc * 10 + digit_val c)%Z r in (v, S k, rest) else (acc, O, t)
  | [] => (acc, O, [])
  end.
Definition pow10 (z : Z) : Q := Qpower (10 # 1) z.
Definition scan_frac (v : Z) (r : text) : Z * nat * text :=
  match r with
  | c :: r1 => if Ascii.eqb c "." then scan_digits v r1 else (v, O, r)
  | [] => (v, O, r)
  end.
Definition scan (t : text) : num :=
  let '(v, _, r) := scan_digits 0 t in
  let '(v, k, r) := scan_frac v r in
  let mant := (inject_Z v * pow10 (- Z.of_nat k))%Q in
  match r with
  | c :: r1 =>
    if Ascii.eqb c "e" then
      let '(neg, r2) := match r1 with
                        | s :: r2 => if Ascii.eqb s "-" then (true, r2) else if Ascii.eqb s "+" then (false, r2) else (false, r1)
                        | [] => (false, r1)
                        end in
      let '(x, n, _) := scan_digits 0 r2 in
      match n with
      | O => NUninit
      | _ => NQ (mant * pow10 (if neg then - x else x))
      end
    else NQ mant
  | [] => NQ mant
  end.

(** The identifier loop (lines 805-833). *)
Fixpoint var_loop (i : nat) (rest : text) : text * text * bool :=
  if Nat.eqb (i + 1) 128 then ([], rest, true)
  else match rest with
       | [] => ([], [], false)
       | c :: r => if is_ident c then let '(cs, r', e) := var_loop (i + 1) r in (c :: cs, r', e) else ([], rest, false)
       end.

(** One pass: end of text, white space, a token with the rest of the text and whether an error message was set,
    an invalid character, or a read past the end (the pointer moved beyond the NUL). *)
Inductive lexed := LEnd | LSkip (rest : text) | LTok (t : tok) (rest : text) (err : bool) | LBad | LOut.

Definition named : list (string * fn) :=
  [("sin", Sin); ("cos", Cos); ("tan", Tan); ("exp", Exp); ("log", Log); ("sqr", Sqrt); ("abs", Abs)]%string.
(** Lines 675-703: the names are compared on three characters; "sqrt" then skips four. *)
Definition find_fn (t : text) : option fn := option_map snd (find (fun p => prefix (chars (fst p)) t) named).

Definition lex1 (t : text) : lexed :=
  match t with
  | [] => LEnd
  | c :: r =>
    if is_space c then LSkip r
    else if Ascii.eqb c "(" then LTok TOpen r false
    else if Ascii.eqb c ")" then LTok TClose r false
    else if Ascii.eqb c "|" then LTok TBar r false
    else if Ascii.eqb c "+" then LTok TPlus r false
    else if Ascii.eqb c "-" then LTok TMinus r false
    else if Ascii.eqb c "*" then LTok TTimes r false
    else if Ascii.eqb c "/" then LTok TDiv r false
    else if Ascii.eqb c "^" then LTok TCaret r false
    else if Ascii.eqb c "!" then LTok TBang r false
    else match find_fn t with
    | Some Sqrt => match skipn 2 r with _ :: r' => LTok (TFn Sqrt) r' false | [] => LOut end
    | Some f => LTok (TFn f) (skipn 2 r) false
    | None =>
      if prefix (chars "pow") t then LTok TPow (skipn 2 r) false
      else if Ascii.eqb c "," then LTok TComma r false
      else if prefix (chars "PI") t then LTok (TNum NPi) (skipn 1 r) false
      else if is_digit c then let '(cs, r', e) := num_loop 1 r in LTok (TNum (scan (c :: cs))) r' e
      else if is_alpha c then let '(cs, r', e) := var_loop 1 r in LTok (TVar (c :: cs)) r' e
      else LBad
    end
  end.
Local Close Scope char_scope.

(** ---- The tree under construction ---- *)

(** Node pointers: [Null] or a node with left child, ID and right child. *)
Inductive tree := Null | Node (l : tree) (id : nid) (r : tree).

(** [current] and its ancestors, [current] first: everything of these nodes but the right child.  The right child of
    an ancestor is the next node of the list; the right child of [current] is kept beside the list.  (The parent
    pointers of the code are the order of the list; every insertion of the code keeps [current] on the chain of
    right children.) *)
Record frame := mkF { f_left : tree; f_id : nid; f_prec : nat }.
Definition zip := (list frame * tree)%type.

Inductive info := SkipClimbUp | RightAssoc | LeftAssoc.

(** The climbing loops of insert_node_item (lines 381-394). *)
Fixpoint climb (stop : nat -> bool) (stk : list frame) (t : tree) : zip :=
  match stk with
  | [] => ([], t)
  | F :: rest => if stop (f_prec F) then (stk, t) else climb stop rest (Node (f_left F) (f_id F) t)
  end.

(** insert_node_item (lines 368-468).  An empty list is a null [current]. *)
Definition insert (z : zip) (id : nid) (prec : nat) (i : info) : res zip :=
  let '(stk, t) := match i with
                   | SkipClimbUp => z
                   | RightAssoc => climb (fun p => Nat.leb p prec) (fst z) (snd z)
                   | LeftAssoc => climb (fun p => Nat.ltb p prec) (fst z) (snd z)
                   end in
  match stk with
  | [] => Throw
  | F :: rest =>
    match id with
    | CloseP => match rest with [] => Throw | _ => Ok (rest, t) end
    | CloseB => Ok (rest, Node (f_left F) (Fun Abs) t)
    | _ => Ok (mkF t id prec :: stk, Null)
    end
  end.

(** Local variables of parse_expression (lines 483-512); [openP], [openB], [two] are the sizes of
    openParenLocations, openAbsBarLocations, twoParamFunctionIDs; [nP], [nB] are numOpenParens and numOpenAbsBars with
    the last element first; [err] says that errorMsg is not empty. *)
Record pstate := mkP { p_zip : zip; p_prev : nid; p_begin : bool; p_nP : list nat; p_nB : list nat;
                       p_openP : nat; p_openB : nat; p_two : nat; p_err : bool }.
Definition p_init : pstate := mkP ([mkF Null Empty 0], Null) Empty false [0] [0] 0 0 0 false.

(** previous.ID tests (lines 646-650 and 874-876). *)
Definition valueish (id : nid) : bool :=
  match id with Num _ | Var _ | Fct | CloseP | CloseB => true | _ => false end.
Definition signish (id : nid) : bool := match id with Pos | Neg => true | _ => false end.

(** Lines 849-865: an open parenthesis after a close parenthesis is a multiplication. *)
Definition implicit_mult (id : nid) (s : pstate) : res pstate :=
  match id, p_prev s with
  | OpenP, CloseP =>
      let! z := insert (p_zip s) Mul 3 LeftAssoc in
      Ok (mkP z Mul (p_begin s) (p_nP s) (p_nB s) (p_openP s) (p_openB s) (p_two s) (p_err s))
  | _, _ => Ok s
  end.

(** Lines 849-909: implicit multiplication, the two checks, insertion. *)
Definition add_node (id : nid) (prec : nat) (i : info) (s : pstate) : res pstate :=
  let! s := implicit_mult id s in
  if match id with OpenP | OpenB | Num _ | Var _ => true | _ => false end && valueish (p_prev s) then Throw
  else if signish id && signish (p_prev s) then Throw
  else let! z := insert (p_zip s) id prec i in
       match fst z with
       | [] => Throw
       | _ => Ok (mkP z id (p_begin s) (p_nP s) (p_nB s) (p_openP s) (p_openB s) (p_two s) (p_err s))
       end.

(** One pass of the loop (lines 537-909).  [back()] and [pop_back()] of an empty vector are undefined. *)
Definition step (s : pstate) (t : tok) : res pstate :=
  match t with
  | TOpen =>
      match p_nP s with
      | [] => UB
      | n :: nP => add_node OpenP 0 SkipClimbUp
                     (mkP (p_zip s) (p_prev s) false (S n :: nP) (0 :: p_nB s) (S (p_openP s)) (p_openB s) (p_two s) (p_err s))
      end
  | TClose =>
      match p_nP s, p_nB s with
      | [], _ | _, [] => UB
      | O :: _, _ => Throw
      | S n :: nP, S _ :: _ => Throw
      | S n :: nP, O :: nB =>
          match nB with
          | [] => UB
          | b :: _ => add_node CloseP 0 RightAssoc
                        (mkP (p_zip s) (p_prev s) (negb (Nat.eqb b 0)) (n :: nP) nB (pred (p_openP s)) (p_openB s) (p_two s) (p_err s))
          end
      end
  | TBar =>
      match p_nB s with
      | [] => UB
      | b :: nB =>
          if negb (p_begin s)
          then add_node OpenB 1 SkipClimbUp
                 (mkP (p_zip s) (p_prev s) true (0 :: p_nP s) (S b :: nB) (p_openP s) (S (p_openB s)) (p_two s) (p_err s))
          else match b, p_nP s with
               | O, _ => Throw
               | S _, [] => UB
               | S _, S _ :: _ => Throw
               | S b', O :: nP =>
                   add_node CloseB 1 RightAssoc
                     (mkP (p_zip s) (p_prev s) false nP (b' :: nB) (p_openP s) (pred (p_openB s)) (p_two s) (p_err s))
               end
      end
  | TPlus => if valueish (p_prev s) then add_node Add 2 LeftAssoc s else add_node Pos 5 SkipClimbUp s
  | TMinus => if valueish (p_prev s) then add_node Sub 2 LeftAssoc s else add_node Neg 5 SkipClimbUp s
  | TTimes => add_node Mul 3 LeftAssoc s
  | TDiv => add_node Dvd 3 LeftAssoc s
  | TCaret => add_node Pw 4 RightAssoc s
  | TBang => add_node Fct 6 LeftAssoc s
  | TFn f => add_node (Fun f) 7 LeftAssoc s
  | TPow => Ok (mkP (p_zip s) (p_prev s) (p_begin s) (p_nP s) (p_nB s) (p_openP s) (p_openB s) (S (p_two s)) (p_err s))
  | TComma =>
      match p_two s with
      | O => Throw
      | S n => add_node Pw 5 LeftAssoc
                 (mkP (p_zip s) (p_prev s) (p_begin s) (p_nP s) (p_nB s) (p_openP s) (p_openB s) n (p_err s))
      end
  | TNum n => add_node (Num n) 7 LeftAssoc s
  | TVar v => add_node (Var v) 7 LeftAssoc s
  end.

(** The whole tree: climb to the root and take its right child. *)
Fixpoint plug (stk : list frame) (t : tree) : tree :=
  match stk with
  | [] => t
  | [_] => t
  | F :: rest => plug rest (Node (f_left F) (f_id F) t)
  end.

(** Lines 914-1029. *)
Definition finish (s : pstate) : res tree :=
  if p_err s || negb (Nat.eqb (p_openP s) 0) || negb (Nat.eqb (p_openB s) 0) || negb (Nat.eqb (p_two s) 0) then Throw
  else match plug (fst (p_zip s)) (snd (p_zip s)) with
       | Null => Throw
       | t => Ok t
       end.

(** The loop on characters.  [fuel] bounds the passes; every pass reads at least one character. *)
Fixpoint parse_loop (fuel : nat) (t : text) (s : pstate) : res tree :=
  match fuel with
  | O => Throw
  | S f =>
    match lex1 t with
    | LEnd => finish s
    | LSkip r => parse_loop f r s
    | LTok k r e =>
        let! s' := step (mkP (p_zip s) (p_prev s) (p_begin s) (p_nP s) (p_nB s) (p_openP s) (p_openB s) (p_two s) (p_err s || e)) k in
        parse_loop f r s'
    | LBad => Throw
    | LOut => UB
    end
  end.
(** parse_expression (lines 472-1030). *)
Definition parse (t : text) : res tree := parse_loop (S (length t)) t p_init.

(** ---- validateNode (lines 168-291) ---- *)
Definition isnull (t : tree) : bool := match t with Null => true | _ => false end.
Fixpoint validate (t : tree) : res unit :=
  match t with
  | Null => Ok tt
  | Node l id r =>
    let! _ := validate l in
    let! _ := validate r in
    match id with
    | Add | Sub | Mul | Dvd | Pw => if isnull l then Throw else if isnull r then Throw else Ok tt
    | Pos | Neg | Fun _ => if isnull r then Throw else if negb (isnull l) then Throw else Ok tt
    | Fct => if isnull l then Throw else if negb (isnull r) then Throw else Ok tt
    | OpenP | CloseP | OpenB | CloseB => Throw
    | Empty | Num _ | Var _ => Ok tt
    end
  end.

(** ---- evaluateNode (lines 316-362) ---- *)

(** The arithmetic of double and the functions of the C library. *)
Record arith := mkA { car :> Type; a0 : car; a_of : Q -> car; a_pi : car; a_neg : car -> car;
  a_add : car -> car -> car; a_sub : car -> car -> car; a_mul : car -> car -> car; a_div : car -> car -> car;
  a_pow : car -> car -> car; a_fn : fn -> car -> car; a_fact : car -> res car; a_zero : car -> bool }.

(** [env]: the parameter list; a missing parameter throws.  Lines 325-329: division by zero gives zero.  (A number is
    handed over in lowest terms, so that it depends on the value only.) *)
Fixpoint eval (A : arith) (env : text -> option A) (t : tree) : res A :=
  match t with
  | Null => Ok (a0 A)
  | Node lt id rt =>
    let! l := eval A env lt in
    let! r := eval A env rt in
    match id with
    | Pos => Ok r
    | Neg => Ok (a_neg A r)
    | Add => Ok (a_add A l r)
    | Sub => Ok (a_sub A l r)
    | Mul => Ok (a_mul A l r)
    | Dvd => if a_zero A r then Ok (a0 A) else Ok (a_div A l r)
    | Pw => Ok (a_pow A l r)
    | Fun f => Ok (a_fn A f r)
    | Fct => a_fact A l
    | Num (NQ q) => Ok (a_of A (Qred q))
    | Num NPi => Ok (a_pi A)
    | Num NUninit => UB
    | Var s => match env s with Some v => Ok v | None => Throw end
    | Empty | OpenP | CloseP | OpenB | CloseB => Ok (a0 A)
    end
  end.

(** parse, validate, evaluate, as CustomMaterial does (src/CustomMaterial.cpp, GetCustomExpressionValue). *)
Definition expression_value (A : arith) (env : text -> option A) (t : text) : res A :=
  let! tr := parse t in
  let! _ := validate tr in
  eval A env tr.

(** factorial (lines 304-312): the loop on long, 64 bits; overflow is undefined. *)
Fixpoint fact_loop (todo : nat) (i ans : Z) : res Z :=
  match todo with
  | O => Ok ans
  | S n => let a := (ans * i)%Z in if Z.leb a (2 ^ 63 - 1) then fact_loop n (i + 1) a else UB
  end.
Definition factorial (m : Z) : res Z := fact_loop (Z.to_nat m) 1 1.
