(** Specification for the perturbations of mo. *)
From Coq Require Import List Arith Bool.
From Verif Require Import Outcome LsModel.
Import ListNotations.
Open Scope nat_scope.

(** [s'] is obtained from [s] by as many applications of the operator as there are answers in [bs] *)
Inductive applications {G F} (op : sol G F -> list nat -> res (sol G F * bool * list nat)) : sol G F -> list nat -> list bool -> sol G F -> list nat -> Prop :=
| app_none s ds : applications op s ds [] s ds
| app_one s ds s1 b ds1 bs s2 ds2 : op s ds = Ok (s1, b, ds1) -> applications op s1 ds1 bs s2 ds2 -> applications op s ds (b :: bs) s2 ds2.

(** the solutions [tr] that follow [s0] when the criterion answers [bs]: the candidate is taken when the
    answer is yes *)
Inductive decisions {G F} (crit : sol G F -> sol G F -> res bool) (s0 : sol G F) : list (sol G F) -> list bool -> Prop :=
| dec_start : decisions crit s0 [] []
| dec_turn tr bs made b : decisions crit s0 tr bs -> crit (last tr s0) made = Ok b ->
    decisions crit s0 (tr ++ [if b then made else last tr s0]) (bs ++ [b]).

(** the number of turns since the last one for which [ev] holds, that one included; all of them if there
    is none.  The most recent turn comes first. *)
Fixpoint turns_since {A} (ev : A -> bool) (recent : list A) : nat :=
  match recent with [] => 0 | a :: l => if ev a then 1 else S (turns_since ev l) end.

(** the solutions [l] drawn one after the other from [s] *)
Inductive draws_from {G F} (init : sol G F -> list nat -> res (sol G F * list nat)) (ready : sol G F -> sol G F) : sol G F -> list nat -> list (sol G F) -> list nat -> Prop :=
| drawn_none s ds : draws_from init ready s ds [] ds
| drawn_one s ds s1 ds1 l ds2 : init s ds = Ok (s1, ds1) -> draws_from init ready (ready s1) ds1 l ds2 -> draws_from init ready s ds (ready s1 :: l) ds2.
