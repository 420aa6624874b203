(** Model of the memory pool of the parse trees (eo/src/gp/node_pool.h). An address is a chunk and an offset in its array
    [mem]. The memory gives, at each address, what the 8-byte word starting there holds: a link written by the pool (the null
    pointer is [None]), or anything else. *)
From Coq Require Import List Arith Bool ZArith.
From Verif Require Import Lib Outcome.
From Coq Require Import List.
Import ListNotations.

Definition addr := (nat * nat)%type.
Inductive word := Junk | Link (next : option addr).
Definition memory := nat -> nat -> word.
(** a word written at an address destroys the words that overlap it *)
Definition write_word (m : memory) (a : addr) (w : word) : memory := fun c o =>
  if c =? fst a then if o =? snd a then w else if (o <? snd a + 8) && (snd a <? o + 8) then Junk else m c o else m c o.
(** any byte written destroys the words it belongs to *)
Definition write_byte (m : memory) (a : addr) : memory := fun c o =>
  if (c =? fst a) && (o <=? snd a) && (snd a <? o + 8) then Junk else m c o.

(** Chunk::size (node_pool.h:80) *)
Definition chunk_size : nat := 8 * 1022.
(** the members (node_pool.h:85-87): the chunks, newest first, are numbered in the order of their creation *)
Record pool := Pool { esize : nat; chunks : list nat; hd_free : option addr; mem : memory }.
(** the constructor (node_pool.h:25). [chunks] and [hd_free] (head) are not initialised by it: the pools are static objects, which
    start with null pointers *)
Definition new_pool (sz : nat) : pool := Pool (if sz <? 8 then 8 else sz) [] None (fun _ _ => Junk).
(** the loop of grow (63-67) from offset [p] *)
Fixpoint link_all (fuel : nat) (m : memory) (c p last es : nat) : res memory :=
  if p <? last then
    match fuel with
    | 0 => NoDraw
    | S f => link_all f (write_word m (c, p) (Link (Some (c, p + es)))) c (p + es) last es
    end
  else Ok m.
(** grow (54-71). With no element the last one is before the array *)
Definition grow (p : pool) : res pool :=
  let c := length (chunks p) in
  let nelem := chunk_size / esize p in
  if nelem =? 0 then UB
  else
    let last := (nelem - 1) * esize p in
    let! m := link_all nelem (mem p) c 0 last (esize p) in
    Ok (Pool (esize p) (c :: chunks p) (Some (c, 0)) (write_word m (c, last) (Link None))).
(** allocate (37-43): the link is read in the block *)
Definition allocate (p : pool) : res (addr * pool) :=
  let! p := match hd_free p with None => grow p | Some _ => Ok p end in
  let! a := of_opt (hd_free p) in
  match mem p (fst a) (snd a) with
  | Link next => Ok (a, Pool (esize p) (chunks p) next (mem p))
  | Junk => UB
  end.
(** deallocate (45-50) *)
Definition deallocate (p : pool) (a : addr) : pool := Pool (esize p) (chunks p) (Some a) (write_word (mem p) a (Link (hd_free p))).
(** the destructor (26-35): the chunks it deletes, in order *)
Definition destroy (p : pool) : list nat := chunks p.

(** what a program does with a pool: allocate, give back the k-th block it holds, write the byte [o] of the k-th block
    it holds (nothing if it holds no such block or byte) *)
Inductive action := Alloc | Free (k : nat) | Touch (k o : nat).
Definition act (st : pool * list addr) (a : action) : res (pool * list addr) :=
  let '(p, held) := st in
  match a with
  | Alloc => let! (b, p') := allocate p in Ok (p', b :: held)
  | Free k => match nth_error held k with Some b => Ok (deallocate p b, firstn k held ++ skipn (S k) held) | None => Ok st end
  | Touch k o =>
      match nth_error held k with
      | Some b => if o <? esize p then Ok (Pool (esize p) (chunks p) (hd_free p) (write_byte (mem p) (fst b, snd b + o)), held) else Ok st
      | None => Ok st
      end
  end.
Fixpoint acts (st : pool * list addr) (l : list action) : res (pool * list addr) :=
  match l with [] => Ok st | a :: r => let! st' := act st a in acts st' r end.
Definition run (sz : nat) (l : list action) : res (pool * list addr) := acts (new_pool sz, []) l.

(** Tree_alloc::allocate (186-221): the pool it takes the block from ([None]: the heap) and the positions where an element
    is built *)
Definition tree_allocate (arity : nat) : option nat * list nat :=
  match arity with
  | 0 => (None, [])
  | 1 => (Some 1, [0])
  | 2 => (Some 2, [0; 1])
  | 3 => (Some 3, [0; 1; 2])
  | n => (None, seq 0 n)
  end.
(** Tree_alloc::construct (224-263): the same, with for each position the element that is copied there *)
Definition tree_construct (arity : nat) : option nat * list (nat * nat) :=
  match arity with
  | 0 => (None, [])
  | 1 => (Some 1, [(0, 0)])
  | 2 => (Some 2, [(0, 0); (1, 1)])
  | 3 => (Some 3, [(0, 0); (1, 1); (1, 2)])
  | n => (None, map (fun i => (i, i)) (seq 0 n))
  end.
(** Tree_alloc::deallocate (268-299): the pool the block is given back to and the positions destroyed *)
Definition tree_deallocate (arity : nat) : option nat * list nat :=
  match arity with
  | 0 => (None, [])
  | 1 => (Some 1, [0])
  | 2 => (Some 2, [1; 0])
  | 3 => (Some 3, [2; 1; 0])
  | n => (None, rev (seq 0 n))
  end.
