(** Specification of the SPEA2 archive (C129, C130), independent of the model. *)
From Coq Require Import List Bool Arith QArith Permutation Sorted.
Import ListNotations.
Close Scope Q_scope.
Open Scope nat_scope.

(** lexicographic order of lists of numbers *)
Inductive lex_lt : list Q -> list Q -> Prop :=
| Lex_here x y u v : (x < y)%Q -> lex_lt (x :: u) (y :: v)
| Lex_next x y u v : (x == y)%Q -> lex_lt u v -> lex_lt (x :: u) (y :: v).

Section Trunc.
(** elements are designated by their positions; [d i j] is the distance between two of them *)
Variable d : nat -> nat -> Q.
Definition others (alive : list nat) (i : nat) : list nat := filter (fun j => negb (j =? i)) alive.
(** the distances from [i] to the others, the shortest first *)
Definition distances_from (alive : list nat) (i : nat) (v : list Q) : Prop :=
  StronglySorted Qle v /\ Permutation v (map (d i) (others alive i)).
(** nobody has closer neighbours than [i] *)
Definition most_crowded (alive : list nat) (i : nat) : Prop :=
  In i alive /\ exists v, distances_from alive i v /\
  forall j, In j alive -> exists w, distances_from alive j w /\ ~ lex_lt w v.
(** [left] is what the truncation of SPEA2 can leave of [alive] when it removes [n] of them *)
Inductive truncated : nat -> list nat -> list nat -> Prop :=
| Trunc_done alive left : Permutation alive left -> truncated 0 alive left
| Trunc_one n alive i left : most_crowded alive i -> truncated n (others alive i) left -> truncated (S n) alive left.
End Trunc.

Section Spec.
Variable G : Type.
Variable fit : G -> Q.
Variable dv : G -> Q.
Definition worth (g : G) : Q := (fit g + dv g)%Q.
(** the [r]-th worst member [a] may be replaced by the [r]-th best individual [p] *)
Definition yields (a p : G) : Prop := (worth a < worth p)%Q /\ (fit a <= -1)%Q.
(** [r] members are replaced: those at the beginning of [worst_first] that yield to the individuals
    of same rank in [best_first]; the best member is never replaced unless it is alone *)
Definition replaced (worst_first best_first : list G) (r : nat) : Prop :=
  (forall i, i < r -> exists a p, nth_error worst_first i = Some a /\ nth_error best_first i = Some p /\ yields a p) /\
  ((r = length worst_first /\ r <= 1) \/ (0 < r /\ S r = length worst_first) \/
   r < length worst_first /\ forall a p, nth_error worst_first r = Some a -> nth_error best_first r = Some p -> ~ yields a p).
(** [goods] are the individuals with fitness above -1 that follow the first [r] *)
Definition good_ones (best_first : list G) (r : nat) (goods : list G) : Prop :=
  exists rest, best_first = firstn r best_first ++ goods ++ rest /\
  (forall g, In g goods -> (-1 < fit g)%Q) /\ (forall g rest', rest = g :: rest' -> (fit g <= -1)%Q).
End Spec.
(** the distance between the elements at two positions of a list *)
Definition apart {G : Type} (dist : G -> G -> Q) (all : list G) (i j : nat) : Q :=
  match nth_error all i, nth_error all j with Some x, Some y => dist x y | _, _ => 0%Q end.
