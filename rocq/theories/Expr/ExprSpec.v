(** Arithmetic expressions, how they are written, and what they mean. *)
From Coq Require Import Arith ZArith QArith Ascii String List Bool.
From Verif Require Import Base.Res Expr.ExprModel.
Import ListNotations.
Local Open Scope nat_scope.

(** A decimal literal: digits, optional fraction, optional exponent with optional sign. *)
Record literal := mkL { l_int : list nat; l_frac : option (list nat); l_exp : option (option bool * list nat) }.
Definition digits_ok (l : list nat) : Prop := Forall (fun d => d < 10) l.
Definition literal_ok (l : literal) : Prop :=
  l_int l <> [] /\ digits_ok (l_int l) /\
  match l_frac l with None => True | Some f => digits_ok f end /\
  match l_exp l with None => True | Some (_, x) => x <> [] /\ digits_ok x end.
Definition decimal (l : list nat) : Z := fold_left (fun a d => (a * 10 + Z.of_nat d)%Z) l 0%Z.
(** The number it denotes. *)
Definition literal_value (l : literal) : Q :=
  let f := match l_frac l with None => [] | Some f => f end in
  let m := ((inject_Z (decimal (l_int l)) + inject_Z (decimal f) * Qpower (10 # 1) (- Z.of_nat (length f)))%Q) in
  match l_exp l with
  | None => m
  | Some (sg, x) => (m * Qpower (10 # 1) (match sg with Some true => - decimal x | _ => decimal x end))%Q
  end.

Inductive binop := BAdd | BSub | BMul | BDiv | BPow.

(** [EPar]: redundant parentheses; [EJux]: two parenthesised factors side by side; [EBar]: absolute value bars;
    [EPow]: the function pow; [EUn true] is negation. *)
Inductive expr :=
| ENum (l : literal) | EPi | EVar (name : text)
| EPar (e : expr) | EUn (neg : bool) (e : expr) | EBin (o : binop) (e1 e2 : expr) | EJux (e1 e2 : expr)
| EFact (e : expr) | EFn (f : fn) (e : expr) | EBar (e : expr) | EPow (e1 e2 : expr).

(** Names: letters, digits and underscores, not starting with a digit nor with a reserved word. *)
Definition reserved : list string := ["sin"; "cos"; "tan"; "exp"; "log"; "sqr"; "abs"; "pow"; "PI"]%string.
Definition name_ok (s : text) : Prop :=
  match s with c :: r => is_alpha c = true /\ Forall (fun c => is_ident c = true) r | [] => False end /\
  length s < 127 /\ forall w, In w reserved -> prefix (chars w) s = false.
Fixpoint expr_ok (e : expr) : Prop :=
  match e with
  | ENum l => literal_ok l
  | EPi => True
  | EVar s => name_ok s
  | EPar e | EUn _ e | EFact e | EFn _ e | EBar e => expr_ok e
  | EBin _ e1 e2 | EJux e1 e2 | EPow e1 e2 => expr_ok e1 /\ expr_ok e2
  end.

(** ---- Meaning ---- *)

(** The mathematical value; none for a division by zero or a name without value, or where a factorial has none. *)
Fixpoint denote (A : arith) (env : text -> option A) (e : expr) : option A :=
  let two f x y := match x, y with Some a, Some b => f a b | _, _ => None end in
  match e with
  | ENum l => Some (a_of A (Qred (literal_value l)))
  | EPi => Some (a_pi A)
  | EVar s => env s
  | EPar e => denote A env e
  | EUn neg e => option_map (fun v => if neg then a_neg A v else v) (denote A env e)
  | EBin BAdd e1 e2 => two (fun a b => Some (a_add A a b)) (denote A env e1) (denote A env e2)
  | EBin BSub e1 e2 => two (fun a b => Some (a_sub A a b)) (denote A env e1) (denote A env e2)
  | EBin BMul e1 e2 | EJux e1 e2 => two (fun a b => Some (a_mul A a b)) (denote A env e1) (denote A env e2)
  | EBin BDiv e1 e2 => two (fun a b => if a_zero A b then None else Some (a_div A a b)) (denote A env e1) (denote A env e2)
  | EBin BPow e1 e2 | EPow e1 e2 => two (fun a b => Some (a_pow A a b)) (denote A env e1) (denote A env e2)
  | EFact e => match denote A env e with
               | Some a => match a_fact A a with Ok v => Some v | _ => None end
               | None => None
               end
  | EFn f e => option_map (a_fn A f) (denote A env e)
  | EBar e => option_map (a_fn A Abs) (denote A env e)
  end.

(** ---- Writing ---- *)

(** The symbols of a text. *)
Inductive sym := SOpen | SClose | SBar | SPlus | SMinus | STimes | SDiv | SCaret | SBang
  | SFn (f : fn) | SPow | SComma | SNum (l : literal) | SPi | SVar (s : text).

(** Binding strength: + - 2, * / 3, ^ 4 (right associative), signs 5, ! 6, everything else 8. *)
Definition strength (o : binop) : nat := match o with BAdd | BSub => 2 | BMul | BDiv => 3 | BPow => 4 end.
Definition level (e : expr) : nat :=
  match e with
  | EBin o _ _ => strength o
  | EJux _ _ => 3
  | EUn _ _ => 5
  | EFact _ => 6
  | _ => 8
  end.
Definition binsym (o : binop) : sym := match o with BAdd => SPlus | BSub => SMinus | BMul => STimes | BDiv => SDiv | BPow => SCaret end.
Definition par (l : list sym) : list sym := SOpen :: l ++ [SClose].

(** Minimal parentheses: operands that bind less strongly than their operator are parenthesised; [inbar] says that
    the text stands inside bars, where further bars must be parenthesised.  The arguments of pow are parenthesised
    like operands of an infix operator of strength 5 (see C48). *)
Fixpoint write (inbar : bool) (e : expr) : list sym :=
  let operand n e := if Nat.leb n (level e) then write inbar e else par (write false e) in
  match e with
  | ENum l => [SNum l]
  | EPi => [SPi]
  | EVar s => [SVar s]
  | EPar e => par (write false e)
  | EUn neg e => (if neg then SMinus else SPlus) :: operand 6 e
  | EBin BPow e1 e2 => operand 5 e1 ++ [SCaret] ++ operand 4 e2
  | EBin o e1 e2 => operand (strength o) e1 ++ [binsym o] ++ operand (S (strength o)) e2
  | EJux e1 e2 => par (write false e1) ++ par (write false e2)
  | EFact e => operand 6 e ++ [SBang]
  | EFn f e => SFn f :: par (write false e)
  | EBar e => let w := SBar :: write true e ++ [SBar] in if inbar then par w else w
  | EPow e1 e2 =>
      let arg e := if Nat.leb 5 (level e) then write false e else par (write false e) in
      SPow :: par (arg e1 ++ [SComma] ++ arg e2)
  end.

(** ---- Spelling ---- *)
Local Open Scope char_scope.
Definition digit_char (d : nat) : ascii := ascii_of_nat (48 + d).
Definition literal_text (l : literal) : text :=
  map digit_char (l_int l) ++
  match l_frac l with None => [] | Some f => "." :: map digit_char f end ++
  match l_exp l with
  | None => []
  | Some (sg, x) => "e" :: match sg with None => [] | Some true => ["-"] | Some false => ["+"] end ++ map digit_char x
  end.
Definition fn_text (f : fn) : text :=
  chars (match f with Sin => "sin" | Cos => "cos" | Tan => "tan" | Exp => "exp" | Log => "log" | Sqrt => "sqrt" | Abs => "abs" end)%string.
Definition sym_text (s : sym) : text :=
  match s with
  | SOpen => ["("] | SClose => [")"] | SBar => ["|"] | SPlus => ["+"] | SMinus => ["-"] | STimes => ["*"] | SDiv => ["/"]
  | SCaret => ["^"] | SBang => ["!"] | SComma => [","]
  | SFn f => fn_text f | SPow => chars "pow" | SPi => chars "PI" | SNum l => literal_text l | SVar s => s
  end.
(** Numbers are shorter than 127 characters, and numbers and names are not run together with what follows. *)
Definition not_run_on (s : sym) (rest : text) : Prop :=
  match s with
  | SNum l => (length (literal_text l) < 127)%nat /\ match rest with c :: _ => is_ident c = false /\ c <> "." | [] => True end
  | SVar _ => match rest with c :: _ => is_ident c = false | [] => True end
  | _ => True
  end.
(** The texts that spell a list of symbols, with any white space before, between and after. *)
Inductive spells : list sym -> text -> Prop :=
| spells_end : spells [] []
| spells_space : forall l c t, is_space c = true -> spells l t -> spells l (c :: t)
| spells_sym : forall s l t, not_run_on s t -> spells l t -> spells (s :: l) (sym_text s ++ t).
Local Close Scope char_scope.

(** ---- Complete trees ---- *)

(** Every operator has exactly its operands and nothing else is left in the tree. *)
Fixpoint complete (t : tree) : Prop :=
  match t with
  | Null => False
  | Node l id r =>
    match id with
    | Add | Sub | Mul | Dvd | Pw => complete l /\ complete r
    | Pos | Neg | Fun _ => l = Null /\ complete r
    | Fct => complete l /\ r = Null
    | Num _ | Var _ => l = Null /\ r = Null
    | Empty | OpenP | CloseP | OpenB | CloseB => False
    end
  end.

(** Balanced brackets: parentheses nest; bars come in pairs and nest only through parentheses.  [st]: the brackets
    that are open, innermost first ([true] a parenthesis, [false] a bar). *)
Fixpoint balanced (st : list bool) (l : list tok) : Prop :=
  match l with
  | [] => st = []
  | TOpen :: l => balanced (true :: st) l
  | TClose :: l => match st with true :: st' => balanced st' l | _ => False end
  | TBar :: l => match st with false :: st' => balanced st' l | _ => balanced (false :: st) l end
  | _ :: l => balanced st l
  end.
(** Every comma belongs to an earlier pow, and every pow has its comma. *)
Fixpoint commas (n : nat) (l : list tok) : Prop :=
  match l with
  | [] => n = 0
  | TPow :: l => commas (S n) l
  | TComma :: l => match n with O => False | S m => commas m l end
  | _ :: l => commas n l
  end.

(** The tokens of a text. *)
Inductive lexes : text -> list tok -> Prop :=
| lexes_end : lexes [] []
| lexes_space : forall c t l, is_space c = true -> lexes t l -> lexes (c :: t) l
| lexes_tok : forall t k r e l, lex1 t = LTok k r e -> lexes r l -> lexes t (k :: l).

(** An "e" that follows a digit or a point is followed by a digit or by a sign and a digit. *)
Definition sign_char (c : ascii) : bool := Ascii.eqb c "+" || Ascii.eqb c "-".
Definition exponents_complete (t : text) : Prop :=
  forall pre d rest, t = pre ++ d :: "e"%char :: rest -> is_digit d || Ascii.eqb d "." = true ->
    match rest with
    | x :: r => is_digit x = true \/ (sign_char x = true /\ match r with y :: _ => is_digit y = true | [] => False end)
    | [] => False
    end.
