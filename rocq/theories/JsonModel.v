(** Model of the JSON-like text format of eo/src/serial: printing and parsing.

    A text is a list of characters.  The parser keeps a position in the whole text, as the
    code does, so that reading past the terminating zero is visible ([Undefined]). *)
From Coq Require Import List Arith Lia Ascii Bool NArith.
Import ListNotations.

Notation text := (list ascii).

Definition quote_ch : ascii := """"%char.
Definition back_ch : ascii := "\"%char.
Definition newline_ch : ascii := "010"%char.

(** eo/src/serial/Entity.h:36-60, SerialString.h:33-70, SerialArray.h:40-60,
    SerialObject.h:41-60: the values.  An [Object] is a [std::map] from keys to pointers; it
    is modelled by the list of its entries in iteration order (sorted keys, each once).
    [JNull] is the null pointer that the parser stores when no value follows a key. *)
Inductive json : Type :=
| JStr (s : text)
| JArr (vs : list json)
| JObj (kvs : list (text * json))
| JNull.

(** [std::string::operator<] (char_traits<char>: comparison of unsigned char). *)
Fixpoint text_ltb (a b : text) : bool :=
  match a, b with
  | _, [] => false
  | [], _ :: _ => true
  | x :: a', y :: b' =>
      if N.ltb (N_of_ascii x) (N_of_ascii y) then true
      else if N.ltb (N_of_ascii y) (N_of_ascii x) then false
      else text_ltb a' b'
  end.

(** [std::map::operator[]] followed by an assignment (Parser.cpp:171): overwrite the entry
    or insert it at its place. *)
Fixpoint map_put (k : text) (v : json) (m : list (text * json)) : list (text * json) :=
  match m with
  | [] => [(k, v)]
  | (k', v') :: m' =>
      if text_ltb k k' then (k, v) :: m
      else if text_ltb k' k then (k', v') :: map_put k v m'
      else (k', v) :: m'
  end.

Definition map_of (kvs : list (text * json)) : list (text * json) :=
  fold_left (fun m e => map_put (fst e) (snd e) m) kvs [].

(** ** Printing *)

(** The separator of SerialArray.cpp:34-40 and SerialObject.cpp:36-42: nothing before the
    first entry, a comma and a space before each other one. *)
Fixpoint join (ts : list text) : text :=
  match ts with
  | [] => []
  | [t] => t
  | t :: ts' => t ++ [","%char; " "%char] ++ join ts'
  end.

(** SerialString.cpp:26-30: the characters between quotes, without any escaping. *)
Definition print_string (s : text) : text := quote_ch :: s ++ [quote_ch].

(** SerialArray.cpp:26-45, SerialObject.cpp:28-48.  Printing a null pointer is a virtual call
    on null (undefined): [print] gives the empty text for it and theorems exclude it. *)
Fixpoint print (v : json) : text :=
  match v with
  | JStr s => print_string s
  | JArr vs => "["%char :: join (map print vs) ++ ["]"%char; newline_ch]
  | JObj kvs =>
      "{"%char ::
      join (map (fun e => print_string (fst e) ++ [":"%char] ++ print (snd e)) kvs)
      ++ ["}"%char; newline_ch]
  | JNull => []
  end.

(** ** Parsing *)

Inductive out (A : Type) : Type :=
| Parsed (a : A)
| Undefined            (** read outside the text, or a null/npos position used *)
| OutOfFuel.           (** the loops of the code have not finished *)
Arguments Parsed {A} a.
Arguments Undefined {A}.
Arguments OutOfFuel {A}.

Definition obnd {A B} (x : out A) (f : A -> out B) : out B :=
  match x with Parsed a => f a | Undefined => Undefined | OutOfFuel => OutOfFuel end.

Section Parser.

Variable str : text.

(** [str[i]] on a const std::string: the zero character at [i = size], undefined beyond. *)
Definition at_ (i : nat) : option ascii := nth_error (str ++ [zero]) i.

(** Search of the next quote from [pos] (Parser.cpp:57,73); [None] is npos. *)
Fixpoint find_in (s : text) (base : nat) : option nat :=
  match s with
  | [] => None
  | c :: s' => if Ascii.eqb c quote_ch then Some base else find_in s' (S base)
  end.
Definition find_quote (pos : nat) : option nat := find_in (skipn pos str) pos.

(** Parser.cpp:74-82: count the backslashes that end at [i], going backwards.  Going below
    position 0 wraps the index to the largest size_t: undefined.  The counter is an int in
    the code; its overflow (more than 2^31 backslashes) is not modelled. *)
Fixpoint count_back (i : nat) : option nat :=
  match at_ i with
  | Some c =>
      if Ascii.eqb c back_ch then
        match i with
        | O => None
        | S i' => match count_back i' with Some n => Some (S n) | None => None end
        end
      else Some 0
  | None => None
  end.

(** Parser.cpp:71-84: the do loop, from [pos] to the position of the closing quote.  A failed
    search leaves npos - 1 as index: undefined.  For [secondQuote = 0] the index wraps. *)
Fixpoint closing (fuel pos : nat) : out nat :=
  match fuel with
  | O => OutOfFuel
  | S f =>
      match find_quote (S pos) with
      | None => Undefined
      | Some second =>
          match count_back (second - 1) with
          | None => Undefined
          | Some n => if Nat.odd n then closing f second else Parsed second
          end
      end
  end.

(** Parser.cpp:48-89.  When the text at [pos] is not a quote both searches find the same one
    and the length of the substring, second - first - 1, wraps to npos: the whole rest. *)
Definition parse_string (pos : nat) : out (text * nat) :=
  obnd (closing (S (length str)) pos) (fun second =>
  match find_quote pos with
  | None => Undefined
  | Some first =>
      Parsed (if second =? first then skipn (S first) str
              else firstn (second - first - 1) (skipn (S first) str), S second)
  end).

Definition is_blank (c : ascii) : bool :=
  Ascii.eqb c ","%char || Ascii.eqb c " "%char || Ascii.eqb c newline_ch.

(** Parser.cpp:98-104 *)
Fixpoint ignore_chars (fuel pos : nat) : out nat :=
  match fuel with
  | O => OutOfFuel
  | S f =>
      match at_ pos with
      | None => Undefined
      | Some c => if is_blank c then ignore_chars f (S pos) else Parsed pos
      end
  end.
Definition ignore (pos : nat) : out nat := ignore_chars (S (length str)) pos.

(** Parser.cpp:117-164 ([parse_right]) with its two loops: 128-132 ([members], which inlines
    parseLeft, 166-172) and 148-154 ([items]). *)
Fixpoint parse_right (fuel pos : nat) : out (json * nat) :=
  match fuel with
  | O => OutOfFuel
  | S f =>
      obnd (ignore pos) (fun pos =>
      obnd
        match at_ pos with
        | None => Undefined
        | Some c =>
            if Ascii.eqb c "{"%char then
              obnd (ignore (pos + 1)) (fun pos =>
              obnd (members f [] pos) (fun r =>
              Parsed (JObj (fst r), snd r + 1)))
            else if Ascii.eqb c quote_ch then
              obnd (parse_string pos) (fun r => Parsed (JStr (fst r), snd r))
            else if Ascii.eqb c "["%char then
              obnd (ignore (pos + 1)) (fun pos =>
              obnd (items f [] pos) (fun r =>
              Parsed (JArr (fst r), snd r + 1)))
            else Parsed (JNull, pos)
        end
        (fun r => obnd (ignore (snd r)) (fun pos => Parsed (fst r, pos))))
  end
with items (fuel : nat) (acc : list json) (pos : nat) : out (list json * nat) :=
  match fuel with
  | O => OutOfFuel
  | S f =>
      if pos <? length str then
        match at_ pos with
        | None => Undefined
        | Some c =>
            if Ascii.eqb c "]"%char then Parsed (acc, pos)
            else
              obnd (parse_right f pos) (fun r =>
              obnd (ignore (snd r)) (fun pos =>
              items f (match fst r with JNull => acc | child => acc ++ [child] end) pos))
        end
      else Parsed (acc, pos)
  end
with members (fuel : nat) (acc : list (text * json)) (pos : nat)
  : out (list (text * json) * nat) :=
  match fuel with
  | O => OutOfFuel
  | S f =>
      if pos <? length str then
        match at_ pos with
        | None => Undefined
        | Some c =>
            if Ascii.eqb c "}"%char then Parsed (acc, pos)
            else
              obnd (parse_string pos) (fun k =>
              obnd (parse_right f (S (snd k))) (fun r =>
              obnd (ignore (snd r)) (fun pos =>
              members f (map_put (fst k) (fst r) acc) pos)))
        end
      else Parsed (acc, pos)
  end.

End Parser.

(** Parser.cpp:111-115: the whole text from position 0.  The result is cast to [Object*]
    without a check; the model returns the value itself.  The fuel bounds the number of
    nested calls and loop turns. *)
Definition parse (fuel : nat) (str : text) : out json :=
  obnd (parse_right str fuel 0) (fun r => Parsed (fst r)).
