(** Model of the command-line parser: eoParam and eoValueParam (eo/src/utils/eoParam.h),
    eoParser (eo/src/utils/eoParser.h, eoParser.cpp), at the level of characters.

    Simplified: parameters are values, not shared references; a parameter is a bool
    (eoValueParam<bool>, specialised in the code) or of one arbitrary other type [T], whose
    operator<< and operator>> are parameters; a short name of 0 is None; the sign is
    not read for a bool; logging is left out; the messages are kept as what they say.
    std::map is an association list with the newest binding first, since only look-ups and
    "is there an unknown one" are observed; std::multimap is a list sorted by key, where a
    new element is put after those of the same key. *)
From Coq Require Import List Bool Ascii String NArith.
From Verif Require Import Outcome StreamModel JsonModel.
Import ListNotations.
Open Scope char_scope.

Section Cli.
Variable T : Type.
(** os << value, and is >> value on the whole given text (the old value is kept by a
    failing extraction) *)
Variable tshow : T -> text.
Variable tstore : text -> T -> T.

Inductive val := VBool (b : bool) | VUser (t : T).
(** eoValueParam::getValue (eoParam.h:203-209) *)
Definition vshow (v : val) : text := match v with VBool b => [if b then "1" else "0"] | VUser t => tshow t end.
(** is >> bool on a non-empty text: 0 gives false, every other number true, no number false *)
Definition bool_of (w : text) (old : bool) : bool :=
  match fst (read_unsigned 4294967295 (Stream w false)) with Some n => negb (N.eqb n 0) | None => old end.
(** eoValueParam::setValue (eoParam.h:224-228) and its bool specialisation (eoParam.h:261-275) *)
Definition vstore (w : text) (v : val) : val :=
  match v with
  | VBool b => VBool (match w with [] => true | _ => bool_of w b end)
  | VUser t => VUser (tstore w t)
  end.

(** eoParam (eoParam.h:36-133) with the value of eoValueParam *)
Record param := Param { lname : text; sname : option ascii; required : bool; value : val; descr : text }.
Definition with_value (q : param) (v : val) : param := Param (lname q) (sname q) (required q) v (descr q).
Definition with_name (q : param) (n : text) : param := Param n (sname q) (required q) (value q) (descr q).

(** longNameMap and shortNameMap *)
Record maps := Maps { longs : list (text * text); shorts : list (ascii * text) }.
Definition long_find (m : maps) (n : text) : option text :=
  option_map snd (List.find (fun e => text_eqb (fst e) n) (longs m)).
Definition short_find (m : maps) (c : ascii) : option text :=
  option_map snd (List.find (fun e => if ascii_dec (fst e) c then true else false) (shorts m)).

(** str.find("\\section{")==0 and str.find("Parser") < str.size() (eoParser.cpp:215-216) *)
Definition tag_parser : text := list_ascii_of_string "Parser".
Definition processing_after (w : text) (processing : bool) : bool :=
  if is_prefix tag_so w then match find tag_parser w with Some _ => true | None => false end else processing.
(** find(str.begin() + 2, str.end(), '=') and the two substrings (eoParser.cpp:236-248) *)
Fixpoint split_equal (l : text) : text * text :=
  match l with
  | [] => ([], [])
  | c :: r => if ascii_dec c "=" then ([], r) else let (n, v) := split_equal r in (c :: n, v)
  end.
(** the word of an option (eoParser.cpp:234-269): str[2] is the terminating '\0' when the
    word has two characters, so the value is then empty and never the "1" of line 253 *)
Definition put_option (w : text) (m : maps) : maps :=
  match w with
  | _ :: c :: r =>
      if ascii_dec c "-" then let (n, v) := split_equal r in Maps ((n, v) :: longs m) (shorts m)
      else Maps (longs m) ((c, match r with e :: v => if ascii_dec e "=" then v else r | [] => [] end) :: shorts m)
  | _ => m
  end.
(** str[0] == c; a word is never empty *)
Definition starts_with (c : ascii) (w : text) : bool :=
  match w with d :: _ => if ascii_dec d c then true else false | [] => false end.
(** the loop of readFrom (eoParser.cpp:210-272): the maps, and whether it was left by the
    return of line 231 *)
Fixpoint read_tokens (fuel : nat) (processing : bool) (s : stream) (m : maps) : res (maps * bool) :=
  match fuel with
  | 0 => NoDraw
  | S f =>
      let (w, s1) := read_word s in
      if failed s1 then Ok (m, false)
      else
        let pr := processing_after w processing in
        if pr then
          if starts_with "#" w then
            match getline (chars s1) with
            | None => Ok (m, false)
            | Some (_, _, r) => read_tokens f pr (Stream r false) m
            end
          else if starts_with "-" w then
            match w with [_] => Ok (m, true) | _ => read_tokens f pr s1 (put_option w m) end
          else read_tokens f pr s1 m
        else read_tokens f pr s1 m
  end.
Definition read_maps (l : text) (m : maps) : res (maps * bool) :=
  read_tokens (S (List.length l)) true (Stream l false) m.

Inductive message := Missing (name : text) | UnknownLong (name : text) | UnknownShort (c : ascii) | UseHelp.
(** eoParser: [help] and [stop] are the parameters needHelp and stopOnUnknownParam, which
    the constructor registers first, under the section "", so that they are always the
    first two entries of the multimap; [others] is the rest of it *)
Record parser := Parser {
  given : maps; help : param; stop : param; others : list (text * param);
  messages : list message; need_message : bool; prefix : text }.
Definition all_params (p : parser) : list param := help p :: stop p :: map snd (others p).

(** getValue (eoParser.cpp:173-196) *)
Definition get_value (m : maps) (q : param) : option text :=
  match match sname q with Some c => short_find m c | None => None end with
  | Some v => Some v
  | None => long_find m (lname q)
  end.
(** isItThere (eoParser.h:164-167) *)
Definition is_there (m : maps) (q : param) : bool := match get_value m q with Some _ => true | None => false end.
(** doRegisterParam (eoParser.cpp:158-171): the parameter and the new messages *)
Definition missing_of (m : maps) (q : param) : list message :=
  if required q && negb (is_there m q) then [Missing (lname q)] else [].
Definition registered (m : maps) (q : param) : param :=
  match get_value m q with Some w => with_value q (vstore w (value q)) | None => q end.

(** params.insert (eoParser.cpp:155) *)
Fixpoint insert (sec : text) (q : param) (l : list (text * param)) : list (text * param) :=
  match l with
  | [] => [(sec, q)]
  | (s, x) :: r => if text_ltb sec s then (sec, q) :: l else (s, x) :: insert sec q r
  end.
Definition nonempty {A} (l : list A) : bool := match l with [] => false | _ => true end.
(** processParam (eoParser.cpp:146-156), which createParam (eoParser.h:74-91) calls *)
Definition process_param (p : parser) (q : param) (sec : text) : parser :=
  let q1 := match prefix p with [] => q | pre => with_name q (pre ++ lname q) end in
  let sec1 := match prefix p with [] => sec | pre => pre ++ sec end in
  let ms := missing_of (given p) q1 in
  Parser (given p) (help p) (stop p) (insert sec1 (registered (given p) q1) (others p))
    (messages p ++ ms) (need_message p || nonempty ms) (prefix p).

(** updateParameters (eoParser.cpp:198-206) *)
Definition update_parameters (p : parser) : parser :=
  let m := given p in
  let ms := flat_map (missing_of m) (all_params p) in
  Parser m (registered m (help p)) (registered m (stop p))
    (map (fun e => (fst e, registered m (snd e))) (others p))
    (messages p ++ ms) (need_message p || nonempty ms) (prefix p).
(** readFrom (eoParser.cpp:208-275) on a constructed parser *)
Definition read_from (l : text) (p : parser) : res parser :=
  let! (m, stopped) := read_maps l (given p) in
  if stopped then Ok (Parser m (with_value (help p) (VBool true)) (stop p) (others p) (messages p) (need_message p) (prefix p))
  else Ok (update_parameters (Parser m (help p) (stop p) (others p) (messages p) (need_message p) (prefix p))).

(** the constructor (eoParser.cpp:79-116).  [argv] is without the program name; [files]
    gives the contents of the files that can be opened *)
Definition is_response (a : text) : bool := match a with "@" :: _ => true | _ => false end.
Definition join_args (argv : list text) : text := flat_map (fun a => a ++ [nl]) argv.
Definition help_param (b : bool) : param :=
  Param (list_ascii_of_string "help") (Some "h") false (VBool b) (list_ascii_of_string "Prints this message").
Definition stop_param : param :=
  Param (list_ascii_of_string "stopOnUnknownParam") None false (VBool true)
    (list_ascii_of_string "Stop if unkown param entered").
Definition construct (files : text -> option text) (argv : list text) : res parser :=
  let! (m1, st1) :=
    match List.find is_response argv with
    | None => Ok (Maps [] [], false)
    | Some a => match files (tl a) with
                | None => Throw
                | Some l => read_maps l (Maps [] [])
                end
    end in
  let! (m2, st2) := read_maps (join_args argv) m1 in
  Ok (Parser m2 (registered m2 (help_param (st1 || st2))) (registered m2 stop_param) [] [] false []).

(** setPrefix (eoParser.h:315) *)
Definition set_prefix (p : parser) (pre : text) : parser :=
  Parser (given p) (help p) (stop p) (others p) (messages p) (need_message p) pre.
(** getParamWithLongName (eoParser.cpp:125-134) *)
Definition param_with (p : parser) (n : text) : option param :=
  List.find (fun q => text_eqb (lname q) (prefix p ++ n)) (all_params p).
(** getParam (eoParser.cpp:136-144), valueOf (eoParser.h:223-239): both throw when there is
    no such parameter *)
Definition value_of (p : parser) (n : text) : res val :=
  match param_with p n with Some q => Ok (value q) | None => Throw end.
(** get (eoParser.cpp:119-122) and isItThere(name) (eoParser.h:173-176) dereference the pointer
    getParamWithLongName returns *)
Definition get_text (p : parser) (n : text) : res text := let! q := of_opt (param_with p n) in Ok (vshow (value q)).
Definition is_there_named (p : parser) (n : text) : res bool :=
  let! q := of_opt (param_with p n) in Ok (is_there (given p) q).
(** getORcreateParam (eoParser.h:248-268): the existing parameter or a new one *)
Definition get_or_create (p : parser) (q : param) (sec : text) : parser :=
  match param_with p (lname q) with Some _ => p | None => process_param p q sec end.

(** the char of shortName() *)
Definition short_code (q : param) : ascii := match sname q with Some c => c | None => "000" end.
(** setORcreateParam (eoParser.h:287-307): it always creates; with no short name the short map
    gets an entry for the character 0 *)
Definition set_or_create (p : parser) (q : param) (sec : text) : parser :=
  let p1 := process_param p q sec in
  let q1 := match prefix p with [] => q | pre => with_name q (pre ++ lname q) end in
  let w := vshow (value q) in
  if is_there (given p) q1 then
    let q2 := with_value q1 (vstore w (value (registered (given p) q1))) in
    let sec1 := match prefix p with [] => sec | pre => pre ++ sec end in
    Parser (given p) (help p) (stop p) (insert sec1 q2 (others p)) (messages p1) (need_message p1) (prefix p)
  else
    Parser (Maps ((lname q, w) :: longs (given p)) ((short_code q, w) :: shorts (given p)))
      (help p1) (stop p1) (others p1) (messages p1) (need_message p1) (prefix p).

(** userNeedsHelp (eoParser.cpp:374-437) *)
Definition unknown_long (ps : list param) (m : maps) : list message :=
  flat_map (fun e : text * text => if existsb (fun q => text_eqb (fst e) (lname q)) ps then [] else [UnknownLong (fst e)]) (longs m).
Definition unknown_short (ps : list param) (m : maps) : list message :=
  flat_map (fun e : ascii * text =>
    if existsb (fun q => if ascii_dec (fst e) (short_code q) then true else false) ps
    then [] else [UnknownShort (fst e)]) (shorts m).
Definition truth (v : val) : bool := match v with VBool b => b | VUser _ => false end.
Definition user_needs_help (p : parser) : bool * parser :=
  let p1 :=
    if truth (value (stop p)) then
      let ms := unknown_long (all_params p) (given p) ++ unknown_short (all_params p) (given p) in
      let nm := need_message p || nonempty ms in
      Parser (given p) (help p) (stop p) (others p) (messages p ++ ms ++ if nm then [UseHelp] else []) nm (prefix p)
    else p in
  (truth (value (help p1)) || nonempty (messages p1), p1).

(** printSectionHeader (eoParser.cpp:47-69); toupper in the "C" locale *)
Definition upper (c : ascii) : ascii :=
  let n := nat_of_ascii c in if (Nat.leb 97 n && Nat.leb n 122)%bool then ascii_of_nat (n - 32) else c.
(** std::left, std::setw(w), std::setfill(c) *)
Definition pad (w : nat) (c : ascii) (l : text) : text := l ++ repeat c (w - List.length l).
Definition section_header (sec : text) : text :=
  let s := match sec with [] => list_ascii_of_string "General" | _ => sec end in
  [nl] ++ list_ascii_of_string "### " ++ pad 80 "#" (map upper s ++ [" "]) ++ [nl].
(** one line of printOn (eoParser.cpp:297-317) *)
Definition param_line (m : maps) (q : param) : text :=
  (if is_there m q then [] else list_ascii_of_string "# ") ++
  pad 40 " " (list_ascii_of_string "--" ++ lname q ++ ["="] ++ vshow (value q)) ++
  list_ascii_of_string " # " ++
  match sname q with Some c => ["-"; c] ++ list_ascii_of_string " : " | None => [] end ++
  descr q ++ (if required q then list_ascii_of_string " REQUIRED " else []) ++ [nl].
(** the loop of printOn (eoParser.cpp:287-318) *)
Fixpoint param_lines (m : maps) (sec : text) (l : list (text * param)) : text :=
  match l with
  | [] => []
  | (s, q) :: r =>
      (if text_eqb s sec then [] else section_header s) ++ param_line m q ++ param_lines m s r
  end.
(** printOn (eoParser.cpp:277-319) *)
Definition print_on (p : parser) : text :=
  section_header [] ++ param_lines (given p) [] (([], help p) :: ([], stop p) :: others p).
End Cli.
