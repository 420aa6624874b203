(** Vocabulary for the operators on variable-length chromosomes (C151, C152). *)
From Coq Require Import List Arith Bool QArith Permutation.
From Verif Require Import Outcome VlModel.
Import ListNotations.
Local Open Scope nat_scope.

(** the genes of [l] at the positions satisfying [p], in order *)
Definition genes_at {A} (p : nat -> bool) (l : list A) : list A :=
  map snd (filter (fun c => p (fst c)) (combine (seq 0 (length l)) l)).

(** [k] copies of a list *)
Definition copies {A} (k : nat) (l : list A) : list A := concat (repeat l k).

Definition within (mn mx n : nat) : Prop := mn <= n <= mx.

(** an atom operator is honest when, answering "no change", it has left its argument(s) alone *)
Definition honest_atom {A} (op : atom_mon A) : Prop :=
  forall a ds a' ds', op a ds = Ok (a', false, ds') -> a' = a.
Definition honest_atoms {A} (op : atom_quad A) : Prop :=
  forall a b ds a' b' ds', op a b ds = Ok (a', b', false, ds') -> a' = a /\ b' = b.

(** [a'] is what some call of the atom operator made of [a] *)
Definition made_by {A} (op : atom_mon A) (a a' : A) : Prop := exists ds b ds', op a ds = Ok (a', b, ds').
Definition made_by_both {A} (op : atom_quad A) (a b a' b' : A) : Prop := exists ds c ds', op a b ds = Ok (a', b', c, ds').

(** a life of one chromosome under the add and the delete mutation, in any order *)
Inductive lives {A} (init : list nat -> res (A * list nat)) (chooser : list A -> list nat -> res (nat * list nat))
    (nMin nMax : nat) : list A -> list A -> Prop :=
| lives_still l : lives init chooser nMin nMax l l
| lives_add l l1 b ds ds' l2 : vl_add A init nMax l ds = Ok (l1, b, ds') ->
    lives init chooser nMin nMax l1 l2 -> lives init chooser nMin nMax l l2
| lives_del l l1 b ds ds' l2 : vl_del A chooser nMin l ds = Ok (l1, b, ds') ->
    lives init chooser nMin nMax l1 l2 -> lives init chooser nMin nMax l l2.
