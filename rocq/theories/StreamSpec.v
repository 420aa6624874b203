(** Specifications for validity histories and textual persistence (C54, C64, C65). *)
From Coq Require Import List Bool Ascii NArith.
From Verif Require Import Outcome StreamModel.
Import ListNotations.

(** only white space *)
Definition blank (l : text) : Prop := Forall (fun c => is_space c = true) l.
(** the end of the text, or white space *)
Definition clean_end (rest : text) : Prop := match rest with [] => True | c :: _ => is_space c = true end.

(** the text of a fitness is one word, not the word INVALID, and reads back *)
Definition fitness_text_ok {F} (fprint : F -> text) (fparse : text -> option F) : Prop :=
  forall f, fprint f <> [] /\ Forall (fun c => is_space c = false) (fprint f) /\ fprint f <> invalid_tag /\
    fparse (fprint f) = Some f.
(** the text of an atom reads back, up to the following white space *)
Definition atom_text_ok {A} (aprint : A -> text) (aread : stream -> option A * stream) : Prop :=
  forall a ws rest, blank ws -> clean_end rest ->
    aread (Stream (ws ++ aprint a ++ rest) false) = (Some a, Stream rest false).

(** [read] restores what [print] wrote, whatever the object it overwrites, the white space
    before and the text after, which stays in the stream *)
Definition restores {X} (print : X -> text) (read : X -> stream -> res (X * stream)) (same : X -> X -> Prop) (good : X -> Prop) : Prop :=
  forall x old ws rest, good x -> blank ws -> clean_end rest ->
    exists ws' x', blank ws' /\ read old (Stream (ws ++ print x ++ rest) false) = Ok (x', Stream (ws' ++ rest) false) /\ same x x'.
(** same readable fitness *)
Definition same_fitness {F} (x y : eo F) : Prop := get_fitness F x = get_fitness F y.

(** *** the life of an individual: what is done to it *)
Inductive life_op (F : Type) : Type :=
| Evaluate (f : F)              (* fitness(f) *)
| Invalidate                    (* invalidate() *)
| Restore (y : eo F) (rest : text).  (* readFrom a stream holding the text of [y] *)
Arguments Evaluate {F} f.
Arguments Invalidate {F}.
Arguments Restore {F} y rest.
(** the fitness it should have after a history, given the one it had before *)
Fixpoint expected {F} (ops : list (life_op F)) (before : res F) : res F :=
  match ops with
  | [] => before
  | Evaluate f :: r => expected r (Ok f)
  | Invalidate :: r => expected r Throw
  | Restore y _ :: r => expected r (get_fitness F y)
  end.
(** ... and what the library does *)
Definition life_step {F} (fdefault fbad : F) fprint fparse (x : eo F) (o : life_op F) : eo F :=
  match o with
  | Evaluate f => set_fitness F x f
  | Invalidate => invalidate F fdefault x
  | Restore y rest => fst (eo_read F fbad fparse x (Stream (eo_print F fprint y ++ rest) false))
  end.

(** same genes, same readable fitness *)
Definition same_vec {F A} (x y : vec F A) : Prop := same_fitness (base F A x) (base F A y) /\ atoms F A x = atoms F A y.
Definition same_bits {F} (x y : bits F) : Prop := same_fitness (bbase F x) (bbase F y) /\ loci F x = loci F y.

(** an object without a class name, or whose class name does not start with a digit *)
Definition reg_ok (cls : option text) : Prop :=
  match cls with None => True | Some c => exists a r, c = a :: r /\ digit a = None end.
