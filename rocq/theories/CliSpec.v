(** Specifications for the command-line parser (C100 to C104). *)
From Coq Require Import List Bool Ascii String.
From Verif Require Import Outcome StreamModel StreamSpec CliModel.
Import ListNotations.
Open Scope char_scope.

(** a word: not empty, no white space *)
Definition word (a : text) : Prop := a <> [] /\ Forall (fun c => is_space c = false) a.
(** [w] starts with [\section{] *)
Definition section_word (w : text) : Prop := exists r, w = list_ascii_of_string "\section{" ++ r.
(** [w] contains [Parser] *)
Definition parser_word (w : text) : Prop := exists a b, w = a ++ list_ascii_of_string "Parser" ++ b.
(** an ordinary argument: a word that starts no comment and no section, not a lone dash,
    without the character 0 *)
Definition plain_arg (a : text) : Prop :=
  word a /\ ~ In "000" a /\ (forall r, a <> "#" :: r) /\ a <> ["-"] /\ ~ section_word a.

(** [a] is [--n=v] or [--n] (then [v] is empty) *)
Definition gives_long (n v a : text) : Prop :=
  ~ In "=" n /\ (a = "-" :: "-" :: n ++ "=" :: v \/ (a = "-" :: "-" :: n /\ v = [])).
(** [a] is [-c=v] or [-cv] *)
Definition gives_short (c : ascii) (v a : text) : Prop :=
  c <> "-" /\ (a = "-" :: c :: "=" :: v \/ (a = "-" :: c :: v /\ forall r, v <> "=" :: r)).
(** the last argument that gives a value gives [v] *)
Definition last_given (g : text -> text -> Prop) (args : list text) (v : text) : Prop :=
  exists before a after, args = before ++ a :: after /\ g v a /\ forall b w, In b after -> ~ g w b.
(** no argument gives a value *)
Definition never_given (g : text -> text -> Prop) (args : list text) : Prop :=
  forall a v, In a args -> ~ g v a.

(** the text the arguments give to a parameter of long name [n] and short name [s] *)
Definition short_never (s : option ascii) (args : list text) : Prop :=
  forall c, s = Some c -> never_given (gives_short c) args.
Inductive chosen (n : text) (s : option ascii) (args : list text) : option text -> Prop :=
| chosen_short c v : s = Some c -> last_given (gives_short c) args v -> chosen n s args (Some v)
| chosen_long v : short_never s args -> last_given (gives_long n) args v -> chosen n s args (Some v)
| chosen_none : short_never s args -> never_given (gives_long n) args -> chosen n s args None.

(** a text is cut at its white space into words *)
Inductive splits : text -> list text -> Prop :=
| splits_end b : blank b -> splits b []
| splits_word b w rest ws : blank b -> word w -> clean_end rest -> splits rest ws -> splits (b ++ w ++ rest) (w :: ws).

(** what a file says: its arguments in order, without its comments (from a word that
    starts with # to the end of the line) and without its sections of other classes *)
Definition one_line (c : text) : Prop := ~ In "010" c.
Inductive file_says : bool -> text -> list text -> Prop :=
| fs_end on b : blank b -> file_says on b []
| fs_arg b a rest args : blank b -> plain_arg a -> clean_end rest -> file_says true rest args ->
    file_says true (b ++ a ++ rest) (a :: args)
| fs_comment b c rest args : blank b -> one_line c -> file_says true rest args ->
    file_says true (b ++ "#" :: c ++ "010" :: rest) args
| fs_last_comment b c : blank b -> one_line c -> file_says true (b ++ "#" :: c) []
| fs_open on b w rest args : blank b -> word w -> section_word w -> parser_word w -> clean_end rest ->
    file_says true rest args -> file_says on (b ++ w ++ rest) args
| fs_close on b w rest args : blank b -> word w -> section_word w -> ~ parser_word w -> clean_end rest ->
    file_says false rest args -> file_says on (b ++ w ++ rest) args
| fs_ignored b w rest args : blank b -> word w -> ~ section_word w -> clean_end rest ->
    file_says false rest args -> file_says false (b ++ w ++ rest) args.

Section Spec.
Variable T : Type.
Variable tshow : T -> text.
Variable tstore : text -> T -> T.
(** a parameter as declared and as it is in the parser: it keeps its value or takes the one
    the arguments give *)
Definition settled (args : list text) (pre : text) (q q' : param T) : Prop :=
  exists o, chosen (pre ++ lname T q) (sname T q) args o /\
    q' = Param T (pre ++ lname T q) (sname T q) (required T q)
           (match o with Some w => vstore T tstore w (value T q) | None => value T q end) (descr T q).
(** createParam, again and again: each declaration is a parameter and a section *)
Definition declare (p : parser T) (decls : list (param T * text)) : parser T :=
  fold_left (fun p d => process_param T tstore p (fst d) (snd d)) decls p.

(** [a] is an option that none of the named parameters has *)
Definition unknown_option (names : list (text * option ascii)) (a : text) : Prop :=
  (exists n v, gives_long n v a /\ forall e, In e names -> fst e <> n) \/
  (exists c v, gives_short c v a /\ forall e, In e names -> snd e <> Some c).
(** the names a parser knows after the declarations *)
Definition known_names (pre : text) (decls : list (param T * text)) : list (text * option ascii) :=
  (list_ascii_of_string "help", Some "h") :: (list_ascii_of_string "stopOnUnknownParam", None) ::
  map (fun d => (pre ++ lname T (fst d), sname T (fst d))) decls.
(** the arguments switch a boolean parameter to [b] *)
Definition switched (n : text) (s : option ascii) (args : list text) (dflt b : bool) : Prop :=
  exists o, chosen n s args o /\
    b = match o with None => dflt | Some [] => true | Some w => bool_of w dflt end.

(** a parameter whose line can be read back *)
Definition printable (q : param T) : Prop :=
  Forall (fun c => is_space c = false) (lname T q) /\ ~ In "=" (lname T q) /\
  Forall (fun c => is_space c = false) (vshow T tshow (value T q)) /\
  ~ In "000" (lname T q) /\ ~ In "000" (vshow T tshow (value T q)) /\
  one_line (descr T q) /\ sname T q <> Some "010".
(** the same parameter, whose value may have been changed by the program *)
Definition same_type (v v' : val T) : Prop :=
  match v, v' with VBool _ _, VBool _ _ => True | VUser _ _, VUser _ _ => True | _, _ => False end.
Definition same_param (q q' : param T) : Prop :=
  same_type (value T q) (value T q') /\ lname T q = lname T q' /\ sname T q = sname T q' /\ required T q = required T q' /\ descr T q = descr T q'.
(** the same parser, up to the values of its parameters *)
Definition same_but_values (p p' : parser T) : Prop :=
  given T p = given T p' /\ same_param (help T p) (help T p') /\ same_param (stop T p) (stop T p') /\
  Forall2 (fun e e' => fst e = fst e' /\ same_param (snd e) (snd e')) (others T p) (others T p').
(** [q0] as declared, [q1] in a parser with the arguments [args], [q2] in the one reloaded: a
    parameter the arguments gave has the saved value again, another one its default *)
Definition restored (args : list text) (q0 q1 q2 : param T) : Prop :=
  lname T q1 = lname T q0 /\ lname T q2 = lname T q0 /\ sname T q2 = sname T q0 /\
  (chosen (lname T q0) (sname T q0) args None -> value T q2 = value T q0) /\
  (forall w, chosen (lname T q0) (sname T q0) args (Some w) -> value T q2 = value T q1).
End Spec.
