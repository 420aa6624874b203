(** The services around a run: the logger (eo/src/utils/eoLogger.{h,cpp}), the
    continuators driven by operating system signals (eo/src/utils/eoSignal.h,
    eo/src/eoCtrlCContinue.{h,cpp}, eo/src/eoSIGContinue.{h,cpp}) and the store
    of dynamically allocated functors (eo/src/eoFunctorStore.{h,cpp}). *)
From Coq Require Import Arith ZArith String Lia List.
From Verif Require Import Lib Outcome.
Import ListNotations.

(** * The logger *)

(** eo::Levels, eo/src/utils/eoLogger.h:105-111: quiet = 0, then errors,
    warnings, progress, logging, debug and xdebug. *)
Definition quiet := 0.
Definition errors := 1.
Definition warnings := 2.
Definition progress := 3.
Definition logging := 4.
Definition debug := 5.
Definition xdebug := 6.

(** The map from names to levels that eoLogger::_init fills through addLevel,
    eoLogger.cpp:51-57,131-135. *)
Definition init_names : list (string * nat) :=
  [("quiet", quiet); ("errors", errors); ("warnings", warnings);
   ("progress", progress); ("logging", logging); ("debug", debug);
   ("xdebug", xdebug)]%string.

(** std::map::operator[] on that map: a missing key gives a value-initialised
    level, that is 0 (quiet).  The entry it inserts has the value later look-ups
    would give anyway, so the model does not insert it. *)
Fixpoint named (names : list (string * nat)) (s : string) : nat :=
  match names with
  | [] => quiet
  | (k, l) :: r => if String.eqb s k then l else named r s
  end.

(** Which stream is given to operator<<(eoLogger&, std::ostream&). *)
Inductive stream := Cout | Clog | Cerr | OtherStream.

(** What the user sends to the logger.  [LFile a] is << eo::file(name), [a] being
    what ::open answers (a descriptor, or -1).  [LText w] is a message, of which the
    streaming of std::ostream gives the characters to the buffer one by one. *)
Inductive lop :=
| LLevel (l : nat)
| LFile (a : Z)
| LSelect (l : nat)
| LSelectName (s : string)
| LStream (s : stream)
| LText (w : string).

(** The members of eoLogger that change, eoLogger.h:242-249. *)
Record logger := Logger { selected : nat; context : nat; fd : Z }.

(** eoLogger::eoLogger, eoLogger.cpp:60-74. *)
Definition logger_init : logger := Logger progress quiet 2.

(** The table of eoLogger::_init, eoLogger.cpp:45-47. *)
Definition std_fd (s : stream) : option Z :=
  match s with
  | Cout => Some 1%Z
  | Clog => Some 2%Z
  | Cerr => Some 2%Z
  | OtherStream => None
  end.

(** One byte that reaches a descriptor. *)
Definition byte := (Z * Ascii.ascii)%type.

(** eoLogger::outbuf::overflow, eoLogger.cpp:193-203.  The argument comes from a
    char through to_int_type, so it is never EOF; the function returns its
    argument, so the stream never goes bad.  What ::write answers is ignored. *)
Definition overflow (l : logger) (c : Ascii.ascii) : list byte :=
  if Nat.leb (context l) (selected l)
  then if (0 <=? fd l)%Z then [(fd l, c)] else []
  else [].

(** The characters of a message, sent one by one (std::streambuf::xsputn with an
    empty buffer). *)
Fixpoint put_text (l : logger) (w : string) : list byte :=
  match w with
  | EmptyString => []
  | String c r => overflow l c ++ put_text l r
  end.

(** The operators << of eoLogger.cpp:160-185.  The setlevel(string) of 212-214 holds
    a negative level, so 174 takes the look-up (the conversion of -1 to the
    enumeration is taken as what compilers make of it). *)
Definition logger_step (l : logger) (o : lop) : logger * list byte :=
  match o with
  | LLevel k => (Logger (selected l) k (fd l), [])
  | LFile a => (Logger (selected l) (context l) a, [])
  | LSelect k => (Logger k (context l) (fd l), [])
  | LSelectName s => (Logger (named init_names s) (context l) (fd l), [])
  | LStream s =>
      (match std_fd s with
       | Some d => Logger (selected l) (context l) d
       | None => l
       end, [])
  | LText w => (l, put_text l w)
  end.

Fixpoint logger_run (l : logger) (ops : list lop) : logger * list byte :=
  match ops with
  | [] => (l, [])
  | o :: r =>
      let (l1, b1) := logger_step l o in
      let (l2, b2) := logger_run l1 r in
      (l2, b1 ++ b2)
  end.

(** eoLogger::~eoLogger, eoLogger.cpp:93-96: the descriptors it closes. *)
Definition logger_close (l : logger) : list Z :=
  if (2 <? fd l)%Z then [fd l] else [].

(** make_verbose, eoLogger.cpp:220-225 with _createParameters 98-125: [v] is the
    value of -v (its default is "quiet", 63), [o] what ::open answers for -o when it is
    given.  The option -l, which prints the levels and exits, is not modelled. *)
Definition make_verbose (l : logger) (o : option Z) (v : string) : logger :=
  let l1 := match o with Some a => fst (logger_step l (LFile a)) | None => l end in
  fst (logger_step l1 (LSelectName v)).

(** * Signals *)

(** The program text of the calls: object [i] listens to signal [sigof i].  What the
    checkpoint of object [i] answers at its [k]-th evaluation is [verdict i k]; the
    checkpoint itself is modelled elsewhere (StopModel).

    A run is driven by events.  [Raise s]: the system delivers signal [s] and the
    handler runs; it is delivered between two elementary steps of the main program.
    [Step]: the main program makes one elementary step.  [Begin i]: the main program,
    idle, starts object [i]'s operator(); [Make i]: it constructs object [i]. *)
Inductive event := Raise (s : nat) | Begin (i : nat) | Make (i : nat) | Step.

(** Where the main program is inside eoSignal::operator() (eoSignal.h:74-84): about
    to test the flag, about to clear it, about to evaluate the checkpoint. *)
Inductive pc := Idle | AtTest (i : nat) | AtClear (i : nat) | AtCheck (i : nat).

(** What an observer sees. *)
Inductive seen :=
| Raised (s : nat) | Made (i : nat) | Called (i : nat)
| Tested (i : nat) | Cleared (i : nat)
| Checked (i : nat) (b : bool)        (** the checkpoint is evaluated *)
| Returned (i : nat) (b : bool).      (** operator() returns *)

Record world := World { flags : nat -> bool; handled : nat -> bool; at_ : pc; checks : nat -> nat }.

(** signals_called, a global map whose missing entries read as false; no handler is
    installed yet. *)
Definition world_init : world := World (fun _ => false) (fun _ => false) Idle (fun _ => 0).

Definition fset {A} (f : nat -> A) (k : nat) (a : A) : nat -> A :=
  fun x => if Nat.eqb x k then a else f x.

Section Signals.
Context (sigof : nat -> nat) (verdict : nat -> nat -> bool).

(** eoSignal: constructor (eoSignal.h:52-72), operator() (74-84) and handler (88-92).
    [None]: the event does not apply in this state (a step while idle, a call while
    another one is in progress, as the main program is sequential, or a signal that
    nothing handles, which ends the process). *)
Definition sig_step (w : world) (e : event) : option (world * list seen) :=
  match e with
  | Raise s =>
      if handled w s
      then Some (World (fset (flags w) s true) (handled w) (at_ w) (checks w), [Raised s])
      else None
  | Make i =>
      match at_ w with
      | Idle => Some (World (fset (flags w) (sigof i) false) (fset (handled w) (sigof i) true)
                          Idle (checks w), [Made i])
      | _ => None
      end
  | Begin i =>
      match at_ w with
      | Idle => Some (World (flags w) (handled w) (AtTest i) (checks w), [Called i])
      | _ => None
      end
  | Step =>
      match at_ w with
      | Idle => None
      | AtTest i =>
          if flags w (sigof i)
          then Some (World (flags w) (handled w) (AtClear i) (checks w), [Tested i])
          else Some (World (flags w) (handled w) Idle (checks w), [Tested i; Returned i true])
      | AtClear i =>
          Some (World (fset (flags w) (sigof i) false) (handled w) (AtCheck i) (checks w),
                [Cleared i])
      | AtCheck i =>
          let b := verdict i (checks w i) in
          Some (World (flags w) (handled w) Idle (fset (checks w) i (S (checks w i))),
                [Checked i b; Returned i b])
      end
  end.

Fixpoint sig_run (w : world) (es : list event) : option (world * list seen) :=
  match es with
  | [] => Some (w, [])
  | e :: r =>
      match sig_step w e with
      | None => None
      | Some (w1, t1) =>
          match sig_run w1 r with
          | None => None
          | Some (w2, t2) => Some (w2, t1 ++ t2)
          end
      end
  end.
End Signals.

(** * The continuator of Ctrl C *)

(** The dispositions of SIGINT and SIGQUIT (set together). *)
Inductive disposition := Default | Handled | Ignored.

(** The globals of eoCtrlCContinue.cpp:41-42 and the disposition. *)
Record ctrlc := CtrlC { exist_ : bool; stop : bool; disp : disposition }.
Definition ctrlc_init : ctrlc := CtrlC false false Default.

(** [KMake]: eoCtrlCContinue is constructed; [KDelete]: one is destroyed (it has no
    destructor of its own); [KRaise]: SIGINT or SIGQUIT is delivered; [KCall]: a
    continuator is asked. *)
Inductive kop := KMake | KDelete | KRaise | KCall.
Inductive kans := KDone | KRefused | KAnswer (b : bool) | KKilled.

(** eoCtrlCContinue::eoCtrlCContinue (eoCtrlCContinue.h:55-69), operator() (73-80),
    signal_handler (eoCtrlCContinue.cpp:48-60). *)
Definition ctrlc_step (k : ctrlc) (o : kop) : ctrlc * kans :=
  match o with
  | KMake => if exist_ k then (k, KRefused) else (CtrlC true (stop k) Handled, KDone)
  | KDelete => (k, KDone)
  | KRaise =>
      match disp k with
      | Default => (k, KKilled)
      | Handled => (CtrlC (exist_ k) true Ignored, KDone)
      | Ignored => (k, KDone)
      end
  | KCall => (k, KAnswer (if stop k then false else true))
  end.

(** A killed process does nothing more. *)
Fixpoint ctrlc_run (k : ctrlc) (os : list kop) : list kans :=
  match os with
  | [] => []
  | o :: r =>
      match ctrlc_step k o with
      | (_, KKilled) => [KKilled]
      | (k', a) => a :: ctrlc_run k' r
      end
  end.

(** * The continuator of an arbitrary signal *)

(** eoSIGContinue::operator() (eoSIGContinue.h:78-87): test, call of the user's
    function, clearing; set_bool (eoSIGContinue.cpp:40-43) is the handler.  One object
    exists (a second construction throws, eoSIGContinue.h:66-67). *)
Inductive spc := SIdle | STest | SFunction | SClear.
Inductive sevent := SRaise | SBegin | SStep.
Inductive sseen := SRaised | SCalled | STested | SRan | SCleared | SReturned (b : bool).
Record sworld := SWorld { call_func : bool; sat : spc }.
Definition sworld_init : sworld := SWorld false SIdle.

Definition sigc_step (w : sworld) (e : sevent) : option (sworld * list sseen) :=
  match e, sat w with
  | SRaise, p => Some (SWorld true p, [SRaised])
  | SBegin, SIdle => Some (SWorld (call_func w) STest, [SCalled])
  | SBegin, _ => None
  | SStep, SIdle => None
  | SStep, STest =>
      if call_func w then Some (SWorld (call_func w) SFunction, [STested])
      else Some (SWorld (call_func w) SIdle, [STested; SReturned true])
  | SStep, SFunction => Some (SWorld (call_func w) SClear, [SRan])
  | SStep, SClear => Some (SWorld false SIdle, [SCleared; SReturned true])
  end.

Fixpoint sigc_run (w : sworld) (es : list sevent) : option (sworld * list sseen) :=
  match es with
  | [] => Some (w, [])
  | e :: r =>
      match sigc_step w e with
      | None => None
      | Some (w1, t1) =>
          match sigc_run w1 r with
          | None => None
          | Some (w2, t2) => Some (w2, t1 ++ t2)
          end
      end
  end.

(** * The store of functors *)

(** The heap: the addresses of the live functors; [next] is an address never given
    yet (the allocator's choice among unused addresses, taken as a counter). *)
Record heap := Heap { live : list nat; next : nat }.

(** What a program does with a heap and a store: allocate a functor by itself, put
    the one at an address in the store (eoFunctorStore.h:56-71; the warning about
    duplicates has no effect), pack one (82-86: new, then storeFunctor). *)
Inductive fop := FNew | FStore (p : nat) | FPack.

Definition is_live (h : heap) (p : nat) : bool := existsb (Nat.eqb p) (live h).

(** storeFunctor returns a reference to the functor: a pointer to nothing is
    undefined. *)
Definition store_step (hv : heap * list nat) (o : fop) : res (heap * list nat) :=
  let (h, v) := hv in
  match o with
  | FNew => Ok (Heap (next h :: live h) (S (next h)), v)
  | FStore p => if is_live h p then Ok (h, v ++ [p]) else UB
  | FPack => Ok (Heap (next h :: live h) (S (next h)), v ++ [next h])
  end.

Fixpoint store_run (hv : heap * list nat) (os : list fop) : res (heap * list nat) :=
  match os with
  | [] => Ok hv
  | o :: r => let! hv' := store_step hv o in store_run hv' r
  end.

(** delete: of a live functor; of a dead one it is undefined. *)
Definition delete (h : heap) (p : nat) : res heap :=
  if is_live h p
  then Ok (Heap (filter (fun q => negb (Nat.eqb p q)) (live h)) (next h))
  else UB.

(** eoFunctorStore::~eoFunctorStore, eoFunctorStore.cpp:13-18. *)
Fixpoint store_close (h : heap) (v : list nat) : res heap :=
  match v with
  | [] => Ok h
  | p :: r => let! h' := delete h p in store_close h' r
  end.
