(** Specification of parallel scheduling (C28, C29), independent of the model. *)
From Coq Require Import List Arith Permutation.
Import ListNotations.

(** [l] is an interleaving of the sequences [ls]: at each step one of them gives its next
    element *)
Inductive interleaving {A} : list (list A) -> list A -> Prop :=
| il_nil ls : Forall (fun l => l = []) ls -> interleaving ls []
| il_step ls1 x l ls2 r : interleaving (ls1 ++ l :: ls2) r -> interleaving (ls1 ++ (x :: l) :: ls2) (x :: r).
(** each of [0 .. n-1] exactly once *)
Definition each_once (n : nat) (l : list nat) : Prop := Permutation l (seq 0 n).
(** loads that differ by at most one *)
Definition balanced {A} (ps : list (list A)) : Prop :=
  forall p q, In p ps -> In q ps -> length p <= S (length q).
