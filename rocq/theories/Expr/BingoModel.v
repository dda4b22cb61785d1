(** Where a custom material takes its equation from (src/CustomMaterial.cpp, GetCustomExpressionValue): its parameters or a Bingo file. *)
From Coq Require Import ZArith Ascii String List Bool.
From Verif Require Import Base.Res Expr.ExprModel.
Import ListNotations.

Definition newline : ascii := "010"%char.
Definition comma : ascii := ","%char.
Definition is_empty (t : text) : bool := match t with [] => true | _ => false end.

(** The file as std::getline (src/CustomMaterial.cpp 79, 93) sees it: its lines, and whether the last one ends with the file instead of a newline.
    Reading such a line sets eofbit; the next getline then fails before it erases its argument.  Simplification: reading does not fail for other reasons. *)
Fixpoint read_lines (cur : text) (t : text) : list text * bool :=
  match t with
  | [] => if is_empty cur then ([], false) else ([cur], true)
  | c :: t' => if Ascii.eqb c newline then let (ls, o) := read_lines [] t' in (cur :: ls, o) else read_lines (cur ++ [c]) t'
  end.
(** std::string::find (lines 86-88). *)
Fixpoint contains (s t : text) : bool :=
  prefix s t || match t with [] => false | _ :: t' => contains s t' end.
Definition is_header (l : text) : bool := contains (chars "FITNESS") l && contains (chars "COMPLEXITY") l && contains (chars "EQUATION") l.
(** find_last_of and substr (lines 102-106). *)
Fixpoint after_last_comma (l : text) : option text :=
  match l with
  | [] => None
  | c :: l' => match after_last_comma l' with Some e => Some e | None => if Ascii.eqb c comma then Some l' else None end
  end.
(** The loop of lines 93-94: the line it leaves, the index it leaves and the lines not read.  At the end of the file the line is erased,
    unless the line before it ended with the file. *)
Fixpoint pick (rest : list text) (opn : bool) (idx : Z) (line : text) : text * Z * list text :=
  match rest with
  | [] => (if opn then line else [], idx, [])
  | l :: rest' => if Z.gtb idx 0 then pick rest' opn (idx - 1) l else (l, idx, rest')
  end.
(** The loop of lines 79-117; [fuel] bounds the lines left to read. *)
Fixpoint scan (fuel : nat) (rest : list text) (opn : bool) (idx : Z) (eq : text) : res text :=
  match fuel with
  | O => UB
  | S fuel' =>
    match rest with
    | [] => Ok eq
    | l :: rest' =>
      if is_empty l then scan fuel' rest' opn idx eq
      else if is_header l then
        let '(line, idx', rest'') := pick rest' opn idx [] in
        if is_empty line || negb (Z.eqb idx' 0) then Throw
        else match after_last_comma line with
             | Some e => scan fuel' rest'' opn idx' e
             | None => Throw
             end
      else scan fuel' rest' opn idx eq
    end
  end.
(** The parameters read: the equation named, the Bingo file (its content, or nothing when it cannot be opened), and BingoEquation. *)
Record custom := mkCustom { cm_equation : option text; cm_file : option (option text); cm_index : option Z }.
(** Lines 28-128: [index] is the argument, negative when it is not given. *)
Definition custom_equation (m : custom) (index : Z) : res text :=
  let! eq := match cm_equation m with
             | Some e => Ok e
             | None =>
               match cm_file m with
               | None => Ok []
               | Some content =>
                 let idx := if Z.ltb index 0 then match cm_index m with Some i => i | None => 0%Z end else index in
                 match content with
                 | None => Throw
                 | Some t => let (ls, o) := read_lines [] t in scan (S (List.length ls)) ls o idx []
                 end
               end
             end in
  if is_empty eq then Throw else Ok eq.
