(** Model of the neighborhood iterators (mo/src/neighborhood) and of the permutation and
    one-bit neighbors (mo/src/problems/permutation, mo/src/problems/bitString). *)
From Coq Require Import List Arith Bool NArith.
From Verif Require Import Outcome Lib.
Import ListNotations.
Open Scope nat_scope.

(** an iterator: init(solution, neighbor), next(solution, neighbor) and cont(solution). [I]: what
    identifies the neighbor produced (its key or its pair of indices). *)
Record iterator (S I : Type) := Iterator {
  i_init : S -> list nat -> res (S * I * list nat);
  i_next : S -> list nat -> res (S * I * list nat);
  i_cont : S -> bool }.
Arguments i_init {S I}.
Arguments i_next {S I}.
Arguments i_cont {S I}.
(** while (cont) next, as the explorers do (for instance moSimpleHCexplorer.h:100-118); [fuel]
    bounds the number of steps *)
Fixpoint continue {S I} (it : iterator S I) (fuel : nat) (s : S) (ds : list nat) : res (list I * S * list nat) :=
  if i_cont it s then
    match fuel with
    | 0 => NoDraw
    | Datatypes.S f =>
        let! (s', x, ds') := i_next it s ds in
        let! (xs, s'', ds'') := continue it f s' ds' in Ok (x :: xs, s'', ds'')
    end
  else Ok ([], s, ds).
Definition explore {S I} (it : iterator S I) (fuel : nat) (s : S) (ds : list nat) : res (list I * S * list nat) :=
  let! (s', x, ds') := i_init it s ds in
  let! (xs, s'', ds'') := continue it fuel s' ds' in Ok (x :: xs, s'', ds'').

(** the states after any history of calls from state [s0], next being called only when cont allows it *)
Inductive reachable {S I} (it : iterator S I) (s0 : S) : S -> Prop :=
| reach_start : reachable it s0 s0
| reach_init s ds s' x ds' : reachable it s0 s -> i_init it s ds = Ok (s', x, ds') -> reachable it s0 s'
| reach_next s ds s' x ds' : reachable it s0 s -> i_cont it s = true -> i_next it s ds = Ok (s', x, ds') -> reachable it s0 s'.

(** moOrderNeighborhood (74-107): the state is currentIndex. The unsigned bound size - 1 wraps
    round for an empty neighborhood: cont is then true (up to 2^32 - 1, not modelled). *)
Definition order_nh (size : nat) : iterator nat nat := Iterator nat nat
  (fun _ ds => Ok (0, 0, ds))
  (fun cur ds => Ok (S cur, S cur, ds))
  (fun cur => if size =? 0 then true else cur <? size - 1).

(** moRndWithReplNeighborhood (58-105): the state is nNeighbors; rng.random(0) is 0 *)
Definition with_repl_nh (size maxNeighbors : nat) : iterator nat nat := Iterator nat nat
  (fun _ ds => let! (i, ds') := draw size ds in Ok (1, if size =? 0 then 0 else i, ds'))
  (fun k ds => let! (i, ds') := draw size ds in Ok (S k, if size =? 0 then 0 else i, ds'))
  (fun k => if maxNeighbors =? 0 then 0 <? size else (0 <? size) && (k <? maxNeighbors)).

(** moRndWithoutReplNeighborhood: maxIndex and indexVector (constructor, 62-65) *)
Record wr_state := { maxIndex : nat; indexVector : list nat }.
Definition wr_start (size : nat) : wr_state := {| maxIndex := 0; indexVector := seq 0 size |}.
(** the common part of init and next (85-90, 100-105) *)
Definition wr_draw (s : wr_state) (ds : list nat) : res (wr_state * nat * list nat) :=
  if maxIndex s =? 0 then UB else
  let! (i, ds') := draw (maxIndex s) ds in
  let! key := of_opt (nth_error (indexVector s) i) in
  let! l := of_opt (swap_at (indexVector s) i (maxIndex s - 1)) in
  Ok ({| maxIndex := maxIndex s - 1; indexVector := l |}, key, ds').
Definition without_repl_nh (size : nat) : iterator wr_state nat := Iterator wr_state nat
  (fun s ds => wr_draw {| maxIndex := size; indexVector := indexVector s |} ds)
  wr_draw
  (fun s => 0 <? maxIndex s).
(** position() (119-122) *)
Definition wr_position (s : wr_state) : res nat := of_opt (nth_error (indexVector s) (maxIndex s)).

(** moSwapNeighborhood (48-86) and moTwoOptExNeighborhood (51-88), on a solution of [n] elements *)
Definition pairs_nh (n : nat) : iterator (nat * nat) (nat * nat) := Iterator (nat * nat) (nat * nat)
  (fun _ ds => Ok ((0, 1), (0, 1), ds))
  (fun s ds => let '(i, j) := s in
     let s' := if j =? n - 1 then (S i, S (S i)) else (i, S j) in Ok (s', s', ds))
  (fun s => negb ((fst s =? n - 2) && (snd s =? n - 1))).

(** ** moves *)
Section Moves.
Variable A : Type.
(** moSwapNeighbor::move (46-52) and moIndexedSwapNeighbor::move (79-88); moveBack is move *)
Definition swap_move (ij : nat * nat) (sol : list A) : res (list A) := of_opt (swap_at sol (fst ij) (snd ij)).
(** moTwoOptExNeighbor::move (46-52); moveBack is move *)
Fixpoint two_opt_loop (i cnt first second : nat) (sol : list A) : res (list A) :=
  match cnt with
  | 0 => Ok sol
  | S c => let! sol' := of_opt (swap_at sol (first + i) (second - i)) in two_opt_loop (S i) c first second sol'
  end.
Definition two_opt_move (ij : nat * nat) (sol : list A) : res (list A) :=
  two_opt_loop 0 ((snd ij - fst ij + 1) / 2) (fst ij) (snd ij) sol.
(** moShiftNeighbor::insertion (172-190). The value is kept in an unsigned int there: exact for
    solutions of unsigned integers. *)
Fixpoint shift_left (i cnt : nat) (sol : list A) : res (list A) :=
  match cnt with
  | 0 => Ok sol
  | S c => let! x := of_opt (nth_error sol (S i)) in let! sol' := of_opt (upd sol i x) in shift_left (S i) c sol'
  end.
Fixpoint shift_right (i cnt : nat) (sol : list A) : res (list A) :=
  match cnt with
  | 0 => Ok sol
  | S c => let! x := of_opt (nth_error sol (i - 1)) in let! sol' := of_opt (upd sol i x) in shift_right (i - 1) c sol'
  end.
Definition insertion (first second : nat) (sol : list A) : res (list A) :=
  let! tmp := of_opt (nth_error sol first) in
  if first <? second then
    let! s := shift_left first (second - 1 - first) sol in of_opt (upd s (second - 1) tmp)
  else
    let! s := shift_right first (first - second) sol in of_opt (upd s second tmp).
(** move (53-57) and moveBack (63-68) *)
Definition shift_move (ij : nat * nat) (sol : list A) : res (list A) := insertion (fst ij) (snd ij) sol.
Definition shift_move_back (ij : nat * nat) (sol : list A) : res (list A) :=
  let (first, second) := ij in
  if first <? second then insertion (second - 1) first sol else insertion second (first + 1) sol.
End Moves.
(** moBitNeighbor::move (58-61); moveBack is move *)
Definition bit_move (key : nat) (sol : list bool) : res (list bool) :=
  of_opt (obind (nth_error sol key) (fun b => upd sol key (negb b))).

(** ** keys *)
Definition two32 : N := 4294967296.
(** moIndexedSwapNeighbor::index(solution, key) (114-121), in 32-bit unsigned arithmetic. The square
    root of an integer below 2^32 is a double: its truncation is the integer square root. *)
Definition swap_index (size key : N) : N * N :=
  let n := ((1 + N.sqrt ((1 + 8 * key) mod two32)) / 2)%N in
  let first := ((key + two32 - (n - 1) * n / 2) mod two32)%N in
  let second := ((size + two32 - 1 - (n + two32 - 1 - first) mod two32) mod two32)%N in
  (first, second).
(** moIndexedSwapNeighbor::set (129-136) *)
Definition swap_key (size first second : N) : N :=
  let n := ((size + first + two32 - second) mod two32)%N in
  ((first + (n * (n + two32 - 1)) mod two32 / 2) mod two32)%N.
(** moShiftNeighbor::index(solution, key) (78-85) and set (123-133); keys below 2^32 *)
Definition shift_index (size key : nat) : nat * nat :=
  let first := key mod size in
  let second := key / size in
  (first, if first <=? second then second + 2 else second).
Definition shift_key (size first second : nat) : nat :=
  if first <? second then (second - 2) * size + first else second * size + first.
