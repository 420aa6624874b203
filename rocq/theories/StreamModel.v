(** Model of the textual persistence of individuals, populations and states (EO,
    eoVector, eoBit, eoPop, eoDualFitness, eoState), at the level of characters.

    An input stream is its remaining characters and whether an extraction failed
    (failbit); eofbit is implied by an empty rest.  Only the default decimal base and
    unsigned numbers without a sign are modelled; extraction of fitnesses and atoms is
    a parameter. *)
From Coq Require Import List Bool Ascii String NArith Decimal.
From Verif Require Import Outcome.
Import ListNotations.
Open Scope char_scope.

Definition text := list ascii.
(** std::isspace in the "C" locale *)
Definition is_space (c : ascii) : bool :=
  let n := nat_of_ascii c in (Nat.eqb n 32) || (Nat.leb 9 n && Nat.leb n 13).
Fixpoint skip_ws (l : text) : text :=
  match l with c :: r => if is_space c then skip_ws r else l | [] => [] end.
(** the longest prefix without white space, and the rest *)
Fixpoint take_word (l : text) : text * text :=
  match l with
  | c :: r => if is_space c then ([], l) else let (w, r') := take_word r in (c :: w, r')
  | [] => ([], [])
  end.
Record stream := Stream { chars : text; failed : bool }.
(** is >> std::string ([basic.string] extraction): the string stays empty on failure *)
Definition read_word (s : stream) : text * stream :=
  if failed s then ([], s)
  else match skip_ws (chars s) with
       | [] => ([], Stream [] true)
       | l => let (w, r) := take_word l in (w, Stream r false)
       end.

Definition digit (c : ascii) : option (uint -> uint) :=
  match c with
  | "0" => Some D0 | "1" => Some D1 | "2" => Some D2 | "3" => Some D3 | "4" => Some D4
  | "5" => Some D5 | "6" => Some D6 | "7" => Some D7 | "8" => Some D8 | "9" => Some D9
  | _ => None
  end.
(** the leading decimal digits, and the rest *)
Fixpoint take_digits (l : text) : uint * text :=
  match l with
  | c :: r => match digit c with Some d => let (u, r') := take_digits r in (d u, r') | None => (Nil, l) end
  | [] => (Nil, [])
  end.
(** is >> n for an unsigned type with values up to [umax].  None: [n] keeps its previous
    (here uninitialised) value, because nothing could be read at all; otherwise the C++11
    rules give 0 when there is no digit, [umax] on overflow, both setting failbit. *)
Definition read_unsigned (umax : N) (s : stream) : option N * stream :=
  if failed s then (None, s)
  else match skip_ws (chars s) with
       | [] => (None, Stream [] true)
       | l =>
           let (u, r) := take_digits l in
           match u with
           | Nil => (Some 0%N, Stream l true)
           | _ => let n := N.of_uint u in
                  if N.leb n umax then (Some n, Stream r false) else (Some umax, Stream r true)
           end
       end.
(** os << n *)
Fixpoint digits_text (u : uint) : text :=
  match u with
  | Nil => [] | D0 u => "0" :: digits_text u | D1 u => "1" :: digits_text u | D2 u => "2" :: digits_text u
  | D3 u => "3" :: digits_text u | D4 u => "4" :: digits_text u | D5 u => "5" :: digits_text u
  | D6 u => "6" :: digits_text u | D7 u => "7" :: digits_text u | D8 u => "8" :: digits_text u
  | D9 u => "9" :: digits_text u
  end.
Definition print_unsigned (n : N) : text := digits_text (N.to_uint n).

(** *** EO (eo/src/EO.h:62-169) *)
Section EO.
Variable F : Type.
(** Fitness(), the value left by a failed extraction, os << fitness, iss >> fitness on
    one word (None: the extraction fails), and the order of the fitness *)
Variable fdefault fbad : F.
Variable fprint : F -> text.
Variable fparse : text -> option F.
Variable ltb : F -> F -> bool.

Record eo := EO { rep : F; inv : bool }.
(** EO() (EO.h:72) *)
Definition eo_new : eo := EO fdefault true.
(** fitness() (EO.h:80-84); fitnessReference() (87-91) throws in the same case *)
Definition get_fitness (x : eo) : res F := if inv x then Throw else Ok (rep x).
(** invalidate() (EO.h:94) *)
Definition invalidate (x : eo) : eo := EO fdefault true.
(** fitness(f) (EO.h:99-103) *)
Definition set_fitness (x : eo) (f : F) : eo := EO f false.
(** operator< and operator> (EO.h:113-114); [a <= b] on fitnesses is [negb (b < a)] *)
Definition eo_lt (a b : eo) : res bool :=
  let! fa := get_fitness a in let! fb := get_fitness b in Ok (ltb fa fb).
Definition eo_gt (a b : eo) : res bool :=
  let! fa := get_fitness a in let! fb := get_fitness b in Ok (negb (negb (ltb fb fa))).

Definition invalid_tag : text := ["I"; "N"; "V"; "A"; "L"; "I"; "D"].
Definition text_eqb (a b : text) : bool := if list_eq_dec ascii_dec a b then true else false.
(** printOn (EO.h:149-160) *)
Definition eo_print (x : eo) : text := (if inv x then invalid_tag else fprint (rep x)) ++ [" "].
(** iss >> repFitness: an empty word leaves it as it is, a wrong one makes it [fbad] *)
Definition extract (w : text) (old : F) : F :=
  match w with [] => old | _ => match fparse w with Some f => f | None => fbad end end.
(** readFrom (EO.h:130-143) *)
Definition eo_read (x : eo) (s : stream) : eo * stream :=
  let (w, s1) := read_word s in
  if text_eqb w invalid_tag then (EO (rep x) true, s1)
  else (EO (extract w (rep x)) false, s1).

(** *** eoVector (eo/src/eoVector.h:109-136) and eoBit (eo/src/ga/eoBit.h:90-119) *)
Variable A : Type.
Variable adefault : A.
Variable aprint : A -> text.
(** is >> atom: None when the extraction fails and [atom] stays indeterminate *)
Variable aread : stream -> option A * stream.
Variable umax : N.
Record vec := Vec { base : eo; atoms : list A }.
(** printOn (eoVector.h:109-117) *)
Definition vec_print (x : vec) : text :=
  eo_print (base x) ++ [" "] ++ print_unsigned (N.of_nat (List.length (atoms x))) ++ [" "] ++
  flat_map (fun a => aprint a ++ [" "]) (atoms x).
Fixpoint read_atoms (n : nat) (s : stream) : res (list A * stream) :=
  match n with
  | 0 => Ok ([], s)
  | S m =>
      let (a, s1) := aread s in
      let! v := of_opt a in
      let! (r, s2) := read_atoms m s1 in
      Ok (v :: r, s2)
  end.
(** readFrom (eoVector.h:120-136): using an indeterminate size or atom is undefined *)
Definition vec_read (x : vec) (s : stream) : res (vec * stream) :=
  let (b, s1) := eo_read (base x) s in
  let (sz, s2) := read_unsigned umax s1 in
  let! n := of_opt sz in
  let! (l, s3) := read_atoms (N.to_nat n) s2 in
  Ok (Vec b l, s3).

Record bits := Bits { bbase : eo; loci : list bool }.
(** printOn (eoBit.h:94-100) *)
Definition bits_print (x : bits) : text :=
  eo_print (bbase x) ++ [" "] ++ print_unsigned (N.of_nat (List.length (loci x))) ++ [" "] ++
  map (fun b : bool => if b then "1" else "0") (loci x).
(** readFrom (eoBit.h:106-119): the size is read and ignored *)
Definition bits_read (x : bits) (s : stream) : bits * stream :=
  let (b, s1) := eo_read (bbase x) s in
  let (_, s2) := read_unsigned umax s1 in
  let (w, s3) := read_word s2 in
  (Bits b (if failed s3 then loci x else map (fun c => if ascii_dec c "1" then true else false) w), s3).
End EO.

(** *** eoPop (eo/src/eoPop.h:342-365) of individuals with their own printOn/readFrom *)
Section Pop.
Variable I : Type.
Variable idefault : I.
Variable iprint : I -> text.
Variable iread : I -> stream -> res (I * stream).
Variable umax : N.
Definition nl : ascii := "010".
(** printOn (eoPop.h:342-346) *)
Definition pop_print (pop : list I) : text :=
  print_unsigned (N.of_nat (List.length pop)) ++ [nl] ++ flat_map (fun x => iprint x ++ [nl]) pop.
(** resize(n) *)
Fixpoint resize (n : nat) (l : list I) : list I :=
  match n, l with
  | 0, _ => []
  | S m, [] => idefault :: resize m []
  | S m, x :: r => x :: resize m r
  end.
Fixpoint read_all (l : list I) (s : stream) : res (list I * stream) :=
  match l with
  | [] => Ok ([], s)
  | x :: r =>
      let! (x', s1) := iread x s in
      let! (r', s2) := read_all r s1 in
      Ok (x' :: r', s2)
  end.
(** readFrom (eoPop.h:355-365) *)
Definition pop_read (pop : list I) (s : stream) : res (list I * stream) :=
  let (sz, s1) := read_unsigned umax s in
  let! n := of_opt sz in
  read_all (resize (N.to_nat n) pop) s1.
End Pop.

(** *** eoDualFitness (eo/src/eoDualFitness.h:333-356) as an EO fitness: a value printed
    by [vprint] and a feasibility, None when it was never set (_feasible_init) *)
Section Dual.
Variable V : Type.
Variable vprint : V -> text.
(** the value at the head of a stream *)
Variable vread : stream -> option V * stream.
Definition dual_print (f : V * option bool) : text :=
  vprint (fst f) ++ [" "] ++ match snd f with Some true => ["1"] | Some false => ["0"] | None => ["?"] end.
(** operator>> : None when the value or the feasibility that is copied is indeterminate *)
Definition dual_read (s : stream) : option (V * option bool) * stream :=
  let (v, s1) := vread s in
  let (b, s2) := read_unsigned 1 s1 in
  match v, b with Some v, Some n => (Some (v, Some (N.eqb n 1)), s2) | _, _ => (None, s2) end.
(** EO<eoDualFitness>::readFrom (EO.h:130-143): one word of the stream is given to
    operator>> *)
Definition dual_eo_read (s : stream) : res ((V * option bool) * stream) :=
  let (w, s1) := read_word s in
  let (f, _) := dual_read (Stream w false) in
  let! g := of_opt f in Ok (g, s1).
End Dual.

(** *** eoState (eo/src/utils/eoState.h, eoState.cpp) *)
(** std::getline: None when nothing is left to read; the flag tells whether the end of
    the file was met (eofbit) *)
Fixpoint split_line (l : text) : text * option text :=
  match l with
  | [] => ([], None)
  | c :: r => if ascii_dec c nl then ([], Some r) else let (w, r') := split_line r in (c :: w, r')
  end.
Definition getline (l : text) : option (text * bool * text) :=
  match l with
  | [] => None
  | _ => match split_line l with (w, Some r) => Some (w, false, r) | (w, None) => Some (w, true, []) end
  end.
(** std::string::find *)
Fixpoint is_prefix (p l : text) : bool :=
  match p, l with
  | [], _ => true
  | _ :: _, [] => false
  | a :: p', b :: l' => if ascii_dec a b then is_prefix p' l' else false
  end.
Fixpoint find (p l : text) : option nat :=
  if is_prefix p l then Some 0
  else match l with [] => None | _ :: r => option_map S (find p r) end.

Definition tag_so : text := list_ascii_of_string "\section{".
Definition tag_sc : text := ["}"; nl].
(** is_section (eoState.cpp:32-50) *)
Definition is_section (str : text) : option text :=
  match find tag_so str with
  | None => None
  | Some pos =>
      match find tag_sc str with
      | None => None
      | Some e => Some (firstn (e - List.length tag_so) (skipn (pos + List.length tag_so) str))
      end
  end.
(** removeComment(str, "#") (eoState.cpp:22-30) *)
Definition remove_comment (str : text) : text :=
  match find ["#"] str with Some p => firstn p str | None => str end.

Section State.
Variable O : Type.
Variable oread : O -> stream -> O.
Variable oprint : O -> text.
(** a state: its objects, with their names, in creation order *)
Definition state := list (text * O).
Definition lookup (st : state) (name : text) : option O :=
  option_map snd (List.find (fun e => text_eqb (fst e) name) st).
Definition store (st : state) (name : text) (o : O) : state :=
  map (fun e => if text_eqb (fst e) name then (fst e, o) else e) st.

(** the two inner loops of load (eoState.cpp:108-134): skip or collect lines until the
    next header; [inl] is "no more line", [inr] the header found *)
Fixpoint collect (fuel : nat) (acc : text) (l : text) : res (text * option text * text * bool) :=
  match fuel with
  | 0 => NoDraw
  | S f =>
      match getline l with
      | None => Ok (acc, None, [], true)
      | Some (str, eof, r) =>
          if eof then Throw
          else match is_section str with
               | Some name => Ok (acc, Some name, r, false)
               | None => collect f (acc ++ remove_comment str ++ [nl]) r
               end
      end
  end.
Fixpoint skip_section (fuel : nat) (l : text) : res (option text * text * bool) :=
  match fuel with
  | 0 => NoDraw
  | S f =>
      match getline l with
      | None => Ok (None, [], true)
      | Some (str, eof, r) =>
          match is_section str with
          | Some name => Ok (Some name, r, eof)
          | None => skip_section f r
          end
      end
  end.
(** load(std::istream&) (eoState.cpp:87-146).  [hd] is the last line read, as a header
    or as another line; [eof] whether eofbit is set. *)
Fixpoint load_loop (fuel : nat) (hd : option text) (eof : bool) (l : text) (st : state) : res state :=
  if eof then Ok st
  else match fuel with
  | 0 => NoDraw
  | S f =>
      match hd with
      | Some name =>
          match lookup st name with
          | None => let! (hd', r, eof') := skip_section fuel l in load_loop f hd' eof' r st
          | Some o =>
              let! (full, hd', r, eof') := collect fuel [] l in
              load_loop f hd' eof' r (store st name (oread o (Stream full false)))
          end
      | None =>
          match getline l with
          | None => load_loop f None true [] st
          | Some (str, eof', r) => load_loop f (is_section str) eof' r st
          end
      end
  end.
Definition load (l : text) (st : state) : res state :=
  match getline l with
  | None => Throw
  | Some (str, eof, r) => load_loop (S (S (List.length l))) (is_section str) eof r st
  end.
(** save(std::ostream&) with the default tags (eoState.cpp:171-209); the assertion on an
    empty state is UB *)
Definition save (st : state) : res text :=
  match st with
  | [] => UB
  | _ => Ok (flat_map (fun e => tag_so ++ fst e ++ tag_sc ++ oprint (snd e) ++ [nl]) st)
  end.

(** createObjectName (eoState.cpp:212-235); [cls] is className(), None when the object is
    not an eoObject.  The loop tries class, class1, class2, ... *)
Fixpoint fresh_name (fuel : nat) (names : list text) (cls : text) (count : N) (name : text) : res text :=
  if existsb (text_eqb name) names then
    match fuel with
    | 0 => NoDraw
    | S f => fresh_name f names cls (N.succ count) (cls ++ print_unsigned count)
    end
  else Ok name.
Definition object_name (names : list text) (cls : option text) : res text :=
  match cls with
  | None => Ok (print_unsigned (N.of_nat (List.length names)))
  | Some c => fresh_name (S (List.length names)) names c 1 c
  end.
(** registerObject (eoState.cpp:60-75) *)
Definition register (st : state) (cls : option text) (o : O) : res state :=
  let! name := object_name (map fst st) cls in
  if existsb (text_eqb name) (map fst st) then Throw else Ok (st ++ [(name, o)]).
(** a sequence of registrations *)
Fixpoint register_all (l : list (option text * O)) (st : state) : res state :=
  match l with [] => Ok st | (cls, o) :: r => let! st' := register st cls o in register_all r st' end.
End State.
