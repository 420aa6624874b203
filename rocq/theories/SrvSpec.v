(** What a user expects from the logger, the signal continuators and the store of
    functors, in terms of the history of what they did. *)
From Coq Require Import Arith ZArith String Ascii Lia List.
From Verif Require Import Lib Outcome SrvModel.
Import ListNotations.

(** * Logger *)

(** The last value that the commands of a history gave to a setting, if any. *)
Fixpoint last_given {A} (gives : lop -> option A) (default : A) (hist : list lop) : A :=
  match hist with
  | [] => default
  | o :: r =>
      last_given gives (match gives o with Some a => a | None => default end) r
  end.

(** The level of the messages that follow. *)
Definition gives_level (o : lop) : option nat :=
  match o with LLevel l => Some l | _ => None end.

(** The rank of the level that has this name in the documentation; any other word
    is silence. *)
Definition rank_of (s : string) : nat :=
  if string_dec s "errors" then 1
  else if string_dec s "warnings" then 2
  else if string_dec s "progress" then 3
  else if string_dec s "logging" then 4
  else if string_dec s "debug" then 5
  else if string_dec s "xdebug" then 6
  else 0.

(** The level the user wants to read. *)
Definition gives_selected (o : lop) : option nat :=
  match o with
  | LSelect l => Some l
  | LSelectName s => Some (rank_of s)
  | _ => None
  end.

(** Where the messages go. *)
Definition gives_target (o : lop) : option Z :=
  match o with
  | LFile a => Some a
  | LStream Cout => Some 1%Z
  | LStream Clog | LStream Cerr => Some 2%Z
  | _ => None
  end.

(** What a message adds to the outputs after a history: all its characters in order
    on the last target, when its level is at most the selected one (level 3, progress,
    and the standard error unless told otherwise). *)
Definition message (hist : list lop) (w : string) : list byte :=
  let target := last_given gives_target 2%Z hist in
  if le_dec (last_given gives_level 0 hist) (last_given gives_selected 3 hist)
  then if Z_lt_dec target 0 then []
       else map (fun c => (target, c)) (list_ascii_of_string w)
  else [].

Fixpoint outputs (hist ops : list lop) : list byte :=
  match ops with
  | [] => []
  | o :: r =>
      match o with LText w => message hist w | _ => [] end ++ outputs (hist ++ [o]) r
  end.

(** [sub l l']: l is l' with some elements left out. *)
Inductive sub {A} : list A -> list A -> Prop :=
| sub_nil : sub [] []
| sub_skip x l l' : sub l l' -> sub l (x :: l')
| sub_keep x l l' : sub l l' -> sub (x :: l) (x :: l').

(** * Signals *)

Section Traces.
Context (sigof : nat -> nat).

(** An event that takes signal [s] into account. *)
Definition takes (s : nat) (x : seen) : Prop :=
  match x with
  | Cleared i | Made i => sigof i = s
  | _ => False
  end.

(** A signal came and nothing took it into account yet. *)
Definition waiting (s : nat) (t : list seen) : Prop :=
  exists t1 t2, t = t1 ++ Raised s :: t2 /\ forall x, In x t2 -> ~ takes s x.

Definition only_raises (t : list seen) : Prop := forall x, In x t -> exists s, x = Raised s.

(** The rest of a call that serves a signal, up to where it was followed: it takes the
    signal into account, then evaluates the checkpoint, and returns its verdict.  More
    signals may come at any point. *)
Inductive serving (i : nat) : list seen -> Prop :=
| sv_before t : only_raises t -> serving i t
| sv_between t u : only_raises t -> only_raises u -> serving i (t ++ Cleared i :: u)
| sv_done t u b v : only_raises t -> only_raises u ->
    serving i (t ++ Cleared i :: u ++ Checked i b :: Returned i b :: v).

(** How often something of signal [s] shows in a trace. *)
Definition is_raise (s : nat) (x : seen) : bool :=
  match x with Raised s' => Nat.eqb s' s | _ => false end.
Definition is_check (s : nat) (x : seen) : bool :=
  match x with Checked i _ => Nat.eqb (sigof i) s | _ => false end.
Definition count (p : seen -> bool) (t : list seen) : nat := List.length (filter p t).

(** The verdicts of object [i] in order. *)
Definition verdicts (i : nat) (t : list seen) : list bool :=
  flat_map (fun x => match x with
                     | Checked j b => if Nat.eqb j i then [b] else []
                     | _ => []
                     end) t.
End Traces.

(** The signal of an eoSIGContinue is waiting: it came after the last clearing. *)
Definition swaiting (t : list sseen) : Prop :=
  exists t1 t2, t = t1 ++ SRaised :: t2 /\ ~ In SCleared t2.
Definition sonly_raises (t : list sseen) : Prop := forall x, In x t -> x = SRaised.

(** The rest of a call that serves the signal. *)
Inductive sserving : list sseen -> Prop :=
| ssv_before t : sonly_raises t -> sserving t
| ssv_between t u : sonly_raises t -> sonly_raises u -> sserving (t ++ SRan :: u)
| ssv_done t u v : sonly_raises t -> sonly_raises u ->
    sserving (t ++ SRan :: u ++ SCleared :: SReturned true :: v).

(** * Store *)

(** The addresses a history gives to the store, the first new functor being at [k]. *)
Fixpoint stored (k : nat) (os : list fop) : list nat :=
  match os with
  | [] => []
  | FNew :: r => stored (S k) r
  | FStore p :: r => p :: stored k r
  | FPack :: r => k :: stored (S k) r
  end.

(** How many functors it allocates. *)
Definition allocated (os : list fop) : nat :=
  List.length (filter (fun o => match o with FStore _ => false | _ => true end) os).
