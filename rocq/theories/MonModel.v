(** What a run leaves behind: the monitors that write to files and streams
    (eo/src/utils/eoFileMonitor.{h,cpp}, eoFileSnapshot.h, eoOStreamMonitor.{h,cpp}), the
    evaluator that dumps solutions (eo/src/eoEvalDump.h), the counters of calls
    (eo/src/eoCounter.h) and the updaters (eo/src/utils/eoUpdater.{h,cpp}, eoUpdatable.h). *)
From Coq Require Import Arith ZArith String Ascii DecimalString DecimalNat Lia Bool List.
From Verif Require Import Lib Outcome.
Import ListNotations.

Definition text := list ascii.
Definition T : string -> text := list_ascii_of_string.
Definition nl : text := [ascii_of_nat 10].

(** What operator<< writes for an unsigned number. *)
Definition decimal (n : nat) : text := T (NilEmpty.string_of_uint (Nat.to_uint n)).

(** The files: [None] is no file of that name. *)
Definition files := text -> option text.
Definition text_dec : forall a b : text, {a = b} + {a <> b} := list_eq_dec ascii_dec.
Definition put (f : files) (n : text) (c : text) : files :=
  fun m => if text_dec m n then Some c else f m.
Definition content (f : files) (n : text) : text :=
  match f n with Some c => c | None => [] end.

(** ** eoFileMonitor *)

(** The members of eoFileMonitor, eoFileMonitor.h:96-121. *)
Record fmonitor := FMonitor {
  fm_name : text; fm_delim : text; fm_keep : bool; fm_header : bool; fm_first : bool;
  fm_overwrite : bool }.

(** A registered parameter, as it is read at a call: its long name and its value (getValue). *)
Definition param := (text * text)%type.

Section Monitors.
(** Whether the system lets a file be opened for writing. *)
Context (can : text -> bool).

(** The constructor, eoFileMonitor.h:58-80: the file is emptied unless it is to be kept. *)
Definition fm_make (name delim : text) (keep header overwrite : bool) (f : files)
  : res (fmonitor * files) :=
  let m := FMonitor name delim keep header true overwrite in
  if keep then Ok (m, f)
  else if can name then Ok (m, put f name []) else Throw.

(** The items of a line, delimited (eoFileMonitor.cpp:20-29 and 75-82); the first one is
    read without a test. *)
Definition delimited (delim : text) (items : list text) : res text :=
  match items with
  | [] => UB
  | x :: r => Ok (x ++ concat (map (fun y => delim ++ y) r) ++ nl)
  end.

(** printHeader(), eoFileMonitor.cpp:34-46: the file is emptied and gets the names. *)
Definition fm_print_header (m : fmonitor) (ps : list param) (f : files) : res files :=
  if can (fm_name m)
  then let! h := delimited (fm_delim m) (map fst ps) in Ok (put f (fm_name m) h)
  else Throw.

(** operator()(), eoFileMonitor.cpp:48-86: the stream is opened first (emptying the file
    when it is to be overwritten, else at its end), then the header is printed through
    another stream; the line then goes to the end of what the file holds. *)
Definition fm_call (m : fmonitor) (ps : list param) (f : files) : res (fmonitor * files) :=
  if can (fm_name m) then
    let f1 := put f (fm_name m) (if fm_overwrite m then [] else content f (fm_name m)) in
    let! (m, f2) :=
      if fm_header m && fm_first m && negb (fm_keep m) && negb (fm_overwrite m)
      then let! f2 := fm_print_header m ps f1 in
           Ok (FMonitor (fm_name m) (fm_delim m) (fm_keep m) (fm_header m) false (fm_overwrite m), f2)
      else Ok (m, f1) in
    let! l := delimited (fm_delim m) (map snd ps) in
    Ok (m, put f2 (fm_name m) (content f2 (fm_name m) ++ l))
  else Throw.

Fixpoint fm_calls (m : fmonitor) (rows : list (list param)) (f : files) : res (fmonitor * files) :=
  match rows with
  | [] => Ok (m, f)
  | r :: rs => let! (m, f) := fm_call m r f in fm_calls m rs f
  end.

(** ** eoFileSnapshot *)

(** The members of eoFileSnapshot, eoFileSnapshot.h:181-187, but the delimiter, which nothing
    reads, and [boolChanged], for a subclass. *)
Record snapshot := Snapshot { sn_dir : text; sn_freq : nat; sn_name : text; sn_counter : nat }.

(** setCurrentFileName, 105-110. *)
Definition sn_file (s : snapshot) : text := sn_dir s ++ T "/" ++ sn_name s ++ decimal (sn_counter s).

(** Numbers are printed by [show]. *)
Context {D : Type} (show : D -> text).

(** The loop of 148-149: one vector, numbered. *)
Fixpoint numbered (k : nat) (v : list D) : text :=
  match v with
  | [] => []
  | x :: r => decimal k ++ T " " ++ show x ++ nl ++ numbered (S k) r
  end.

(** The loop of 162-167 for one row: vv[i][k] for every i. *)
Fixpoint table_row (vv : list (list D)) (k : nat) : res text :=
  match vv with
  | [] => Ok []
  | v :: r => let! x := of_opt (nth_error v k) in
              let! t := table_row r k in Ok (show x ++ T " " ++ t)
  end.
Fixpoint table (vv : list (list D)) (ks : list nat) : res text :=
  match ks with
  | [] => Ok []
  | k :: r => let! t := table_row vv k in let! u := table vv r in Ok (t ++ nl ++ u)
  end.

(** operator()(ostream), 138-170, on the registered vectors.  Line 158 reads vec[1] for every
    i; the sizes are compared with the first one. *)
Definition sn_write (vec : list (list D)) : res text :=
  match vec with
  | [] => UB
  | [v] => Ok (numbered 0 v)
  | v :: v1 :: r =>
      if length v1 =? length v
      then table (v :: map (fun _ => v1) (v1 :: r)) (seq 0 (length v))
      else Throw
  end.

(** operator()(), 114-134.  A frequency of 0 is a division by zero. *)
Definition sn_call (s : snapshot) (vec : list (list D)) (f : files) : res (snapshot * files) :=
  match sn_freq s with
  | 0 => UB
  | _ =>
      let s' := Snapshot (sn_dir s) (sn_freq s) (sn_name s) (S (sn_counter s)) in
      if (sn_counter s mod sn_freq s =? 0)
      then if can (sn_file s')
           then let! t := sn_write vec in Ok (s', put f (sn_file s') t)
           else Throw
      else Ok (s', f)
  end.

Fixpoint sn_calls (s : snapshot) (vecs : list (list (list D))) (f : files) : res (snapshot * files) :=
  match vecs with
  | [] => Ok (s, f)
  | v :: r => let! (s, f) := sn_call s v f in sn_calls s r f
  end.

(** ** eoEvalDump *)

Record dumper := Dumper { du_name : text; du_single : bool; du_count : nat; du_sep : text }.

(** The name of the file written for one solution, eoEvalDump.h:94-102. *)
Definition du_file (d : dumper) : text :=
  if du_single d then du_name d else du_name d ++ du_sep d ++ decimal (du_count d).

(** operator() (69-73) and dump (92-115): the wrapped evaluation, then the solution is written.
    [debug]: the library is compiled without NDEBUG, so a file that cannot be opened throws;
    else nothing is written and the run goes on. *)
Definition du_call {X} (debug : bool) (eval : X -> res X) (print : X -> text) (d : dumper) (x : X) (f : files)
  : res (X * dumper * files) :=
  let! x := eval x in
  let d' := Dumper (du_name d) (du_single d) (S (du_count d)) (du_sep d) in
  if can (du_file d) then Ok (x, d', put f (du_file d) (print x ++ nl))
  else if debug then Throw else Ok (x, d', f).

Fixpoint du_calls {X} (debug : bool) (eval : X -> res X) (print : X -> text) (d : dumper) (xs : list X) (f : files)
  : res (list X * dumper * files) :=
  match xs with
  | [] => Ok ([], d, f)
  | x :: r => let! (y, d, f) := du_call debug eval print d x f in
              let! (ys, d, f) := du_calls debug eval print d r f in Ok (y :: ys, d, f)
  end.
End Monitors.

(** ** eoOStreamMonitor *)

(** A stream: what was written and the width pending for the next item (the alignment is left
    and the fill character is the monitor's once it has written). *)
Record ostream := OStream { os_text : text; os_width : nat }.

(** operator<< on a string: padded on the right to the pending width, which it resets. *)
Definition pad (w : nat) (fill : ascii) (s : text) : text := s ++ repeat fill (w - length s).
Definition put_item (fill : ascii) (s : text) (o : ostream) : ostream :=
  OStream (os_text o ++ pad (os_width o) fill s) 0.
Definition setw (w : nat) (o : ostream) : ostream := OStream (os_text o) w.
(** std::endl: unformatted, the pending width stays. *)
Definition endl (o : ostream) : ostream := OStream (os_text o ++ nl) (os_width o).

Record omonitor := OMonitor {
  om_delim : text; om_width : nat; om_fill : ascii; om_first : bool; om_names : bool; om_sep : text }.

(** One item and its delimiter, eoOStreamMonitor.cpp:29-30 and 47-51; [pre] is what is written
    before it when names are asked for. *)
Definition put_column (m : omonitor) (pre : list text) (x : text) (o : ostream) : ostream :=
  setw (om_width m) (put_item (om_fill m) (om_delim m)
    (put_item (om_fill m) x (fold_left (fun o s => put_item (om_fill m) s o) pre o))).

(** operator()(), eoOStreamMonitor.cpp:18-57, on a stream in a good state. *)
Definition om_call (m : omonitor) (ps : list param) (o : ostream) : omonitor * ostream :=
  let o1 := if om_first m
            then endl (fold_left (fun o p => put_column m [] (fst p) o) ps o) else o in
  let pre p := if om_names m then [fst p; om_sep m] else [] in
  (OMonitor (om_delim m) (om_width m) (om_fill m) false (om_names m) (om_sep m),
   endl (fold_left (fun o p => put_column m (pre p) (snd p) o) ps o1)).

Fixpoint om_calls (m : omonitor) (rows : list (list param)) (o : ostream) : omonitor * ostream :=
  match rows with
  | [] => (m, o)
  | r :: rs => let (m, o) := om_call m r o in om_calls m rs o
  end.

(** ** Counters *)

(** eoProcedureCounter, eoUnaryFunctorCounter, eoBinaryFunctorCounter::operator(),
    eoCounter.h:67-75,117-126,161-171: the counter is increased, then the function is called.
    The counter survives an exception: the result holds it in every case. *)
Definition counted {A B S} (f : A -> S -> res (B * S)) (c : nat) (a : A) (s : S) : nat * res (B * S) :=
  (c + 1, f a s).

Fixpoint counted_calls {A B S} (f : A -> S -> res (B * S)) (c : nat) (l : list A) (s : S) : nat * res (list B * S) :=
  match l with
  | [] => (c, Ok ([], s))
  | a :: r =>
      match counted f c a s with
      | (c, Ok (b, s)) =>
          let (c, q) := counted_calls f c r s in
          (c, let! (bs, s) := q in Ok (b :: bs, s))
      | (c, Throw) => (c, Throw)
      | (c, UB) => (c, UB)
      | (c, NoDraw) => (c, NoDraw)
      end
  end.

(** ** Updaters *)

(** eoIncrementor, eoIncrementorParam::operator(), eoUpdater.h:65-68,96-99. *)
Fixpoint increments (step : Z) (n : nat) (c : Z) : Z :=
  match n with 0 => c | S n => increments step n (c + step) end.

(** eoCountedDynUpdate::operator(), eoUpdatable.h:105-111: [n] calls; whether each one updates.
    An interval of 0 is a division by zero. *)
Fixpoint counted_updates (interval counter n : nat) : res (list bool) :=
  match n with
  | 0 => Ok []
  | S n =>
      match interval with
      | 0 => UB
      | _ => let! r := counted_updates interval (counter + 1) n in
             Ok (((counter + 1) mod interval =? 0) :: r)
      end
  end.

(** eoTimedDynUpdate::operator(), eoUpdatable.h:78-87, and eoTimedStateSaver::operator(),
    eoUpdater.cpp:16-27: one reading of the clock per call; the times of those that act. *)
Fixpoint timed_updates (interval last : Z) (now : list Z) : list Z :=
  match now with
  | [] => []
  | t :: r => if (last + interval <=? t)%Z then t :: timed_updates interval t r
              else timed_updates interval last r
  end.

(** The number in the name of the file that eoTimedStateSaver saves, eoUpdater.cpp:23-24. *)
Definition saved_numbers (interval first : Z) (now : list Z) : list Z :=
  map (fun t => (t - first)%Z) (timed_updates interval first now).
