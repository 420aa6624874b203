(** Model of the evaluation by a system command, eo/src/eoEvalCmd.h, and of the fitness assignment with a reference point,
    moeo/src/fitness/moeoReferencePointIndicatorBasedFitnessAssignment.h.

    A character is a number: 10 ends a line, 0 ends a C string, 32 is the space. *)
From Coq Require Import Arith QArith Bool.
From Verif Require Import Lib Outcome IndModel.
From Coq Require Import List.
Import ListNotations.
Close Scope Q_scope.
Open Scope nat_scope.

Notation text := (list nat).

(** what fgets takes from the stream: at most [k] characters, and no more after the end of a line *)
Fixpoint line_part (k : nat) (s : text) : text * text :=
  match k, s with
  | 0, _ => ([], s)
  | _, [] => ([], [])
  | S j, c :: r => if c =? 10 then ([c], r) else let (a, b) := line_part j r in (c :: a, b)
  end.
(** fgets(buffer, n, pipe): NULL at the end of the stream; a buffer of one character always gets the empty string *)
Definition fgets (n : nat) (s : text) : option (text * text) :=
  if n =? 1 then Some ([], s) else match s with [] => None | _ => Some (line_part (n - 1) s) end.
(** output += buffer.data(): the characters up to the first 0 *)
Fixpoint c_string (l : text) : text := match l with [] => [] | c :: r => if c =? 0 then [] else c :: c_string r end.
(** the loop that reads the output (eoEvalCmd.h:123-125); None if it is still running after [fuel] turns *)
Fixpoint read_all (fuel n : nat) (s output : text) : option text :=
  match fuel with
  | 0 => None
  | S f => match fgets n s with None => Some output | Some (a, r) => read_all f n r (output ++ c_string a) end
  end.

Section Cmd.
Context {F : Type}.
(** what the operator >> of a fitness makes of characters that are not all blank: None if they do not start with a fitness; the number is then set to [zero] *)
Variable number : text -> option F.
Variable zero : F.
Definition blank (c : nat) : bool := (c =? 32) || ((9 <=? c) && (c <=? 13)).
(** Fitness f; result >> f; return f (eoEvalCmd.h:135-139): at the end of the stream the number is left as it is, not set *)
Definition parse (output : text) : res F :=
  if forallb blank output then UB else Ok (match number output with Some v => v | None => zero end).

Record indiv := Indiv { fitness : option F; genes : text }.
(** the stream form of an individual *)
Variable shown : indiv -> text.
Record evaluator := Evaluator { cmd : text; prefix : text; infix : text; suffix : text; last_call : text }.
(** what the system does with a command: popen fails, or the output and the return code *)
Variable system : text -> option (text * nat).

(** the command of eoEvalCmd::call (eoEvalCmd.h:109-111) *)
Definition command (e : evaluator) (x : indiv) : text :=
  prefix e ++ [32] ++ cmd e ++ [32] ++ infix e ++ [32] ++ shown x ++ [32] ++ suffix e.
(** eoEvalCmd::call (eoEvalCmd.h:107-140) for a buffer of [n] characters; None if the loop is still running after [fuel] turns *)
Definition call (fuel n : nat) (e : evaluator) (x : indiv) : option (res F) :=
  match system (command e x) with
  | None => Some Throw
  | Some (out, code) =>
      match read_all fuel n out [] with
      | None => None
      | Some output => Some (if negb (code =? 0) then Throw else parse output)
      end
  end.
(** what an evaluation leaves: the individual or how it ended, the evaluator, and the commands that were run *)
Record done := Done { outcome : res indiv; after : evaluator; ran : list text }.
(** eoEvalCmd::operator() (eoEvalCmd.h:83-92) *)
Definition evaluate (fuel n : nat) (e : evaluator) (x : indiv) : option done :=
  match fitness x with
  | Some _ => Some (Done (Ok x) e [])
  | None =>
      let e' := Evaluator (cmd e) (prefix e) (infix e) (suffix e) (command e x) in
      match call fuel n e x with
      | None => None
      | Some r => Some (Done (let! f := r in Ok (Indiv (Some f) (genes x))) e' [command e x])
      end
  end.
End Cmd.

(** * Reference point *)
Section Ref.
Variable metric : list (Q * Q) -> list Q -> list Q -> res Q.
(** setFitnesses (moeoReferencePointIndicatorBasedFitnessAssignment.h:124-130) *)
Fixpoint ref_fitnesses (bs : list (Q * Q)) (ref : list Q) (pop : list (list Q * Q)) : res (list (list Q * Q)) :=
  match pop with
  | [] => Ok []
  | x :: r => let! v := metric bs (fst x) ref in let! q := ref_fitnesses bs ref r in Ok ((fst x, (- v)%Q) :: q)
  end.
(** operator() (moeoReferencePointIndicatorBasedFitnessAssignment.h:71-77); setup (103-118) starts from the values of the reference point and goes
    through the population, as the setup of IndModel does from its first individual *)
Definition ref_assign (nobj : nat) (ref : list Q) (pop : list (list Q * Q)) : res (list (list Q * Q) * list (Q * Q)) :=
  let! bs := setup nobj ((ref, 0%Q) :: pop) in
  let! p := ref_fitnesses bs ref pop in Ok (p, bs).
(** updateByDeleting (85-88) *)
Definition ref_update_by_deleting (pop : list (list Q * Q)) (o : list Q) : list (list Q * Q) := pop.
End Ref.
