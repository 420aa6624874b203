(** What a distance between objective vectors is, independently of the code. *)
From Coq Require Import QArith Qabs.
From Coq Require Import List.
Import ListNotations.
Local Open Scope Q_scope.

(** The sum over the objectives. *)
Definition total (l : list Q) : Q := fold_right Qplus 0 l.
(** The differences, objective by objective. *)
Definition differences (a b : list Q) : list Q := map (fun p => fst p - snd p) (combine a b).
(** The differences where objective i is multiplied by its coefficient. *)
Definition scaled_differences (sc : list (Q * Q)) (a b : list Q) : list Q := map (fun p => fst (fst p) * snd p) (combine sc (differences a b)).
Definition same (a b : list Q) : Prop := Forall2 Qeq a b.
