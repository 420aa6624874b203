(** Model of the parse trees of genetic programming (eo/src/gp). *)
From Coq Require Import List Arith Bool.
From Verif Require Import Lib Outcome.
From Coq Require Import List.
Import ListNotations.
Open Scope nat_scope.

Section Gp.
(** nodes, and Node::arity(). randomize() is taken not to change the arity and is not modelled; a
    default-constructed node has arity 0, without which the constructors of subtree dereference the
    null pointer args (the requirement is stated at parse_tree.h:29-30; constructors 217-237, end() 346). *)
Variables (N : Type) (arity : N -> nat).

(** subtree (parse_tree.h:194-594): content, args, and the stored _size, _depth, _cumulative_size.
    Nodes are values here: the parent pointers are given by the position in the tree. *)
Inductive subtree := Sub (content : N) (args : list subtree) (size depth cumul : nat).
Definition content (t : subtree) : N := match t with Sub c _ _ _ _ => c end.
Definition args (t : subtree) : list subtree := match t with Sub _ a _ _ _ => a end.
Definition size (t : subtree) : nat := match t with Sub _ _ s _ _ => s end.
Definition depth (t : subtree) : nat := match t with Sub _ _ _ d _ => d end.
Definition cumul (t : subtree) : nat := match t with Sub _ _ _ _ m => m end.

(** updateAfterInsert (394-411) on one node *)
Definition refresh (c : N) (a : list subtree) : subtree :=
  let sz := fold_left (fun n t => n + size t) a 1 in
  Sub c a sz (S (fold_left (fun d t => if d <? depth t then depth t else d) a 0)) (fold_left (fun n t => n + cumul t) a 0 + sz).

(** imp_get_node (431-446), giving the way from the root (ranks of the arguments) to the node it returns;
    unsigned c_size is taken wide enough *)
Fixpoint get_node (t : subtree) (which : nat) : list nat :=
  match t with
  | Sub _ a sz _ _ =>
      if which =? sz - 1 then []
      else match (fix loop (l : list subtree) (i : nat) : list nat + nat :=
              match l with
              | [] => inr which
              | x :: r =>
                  match loop r (S i) with
                  | inl p => inl p
                  | inr w => if w <? size x then inl (i :: get_node x w) else inr (w - size x)
                  end
              end) a 0 with
           | inl p => p
           | inr _ => [] (* error! *)
           end
  end.
(** the subtree at the end of a way *)
Fixpoint sub_at (t : subtree) (p : list nat) : res subtree :=
  match p with
  | [] => Ok t
  | i :: q => match nth_error (args t) i with Some x => sub_at x q | None => UB end
  end.
(** operator[] (944-947) *)
Definition nth_node (t : subtree) (i : nat) : res subtree := sub_at t (get_node t i).

(** tree[..] = s from another tree (operator=, 241-252, copy 456-495): copy, then updateAfterInsert
    there and in all the ancestors *)
Fixpoint assign (t : subtree) (p : list nat) (s : subtree) : res subtree :=
  match p with
  | [] => Ok (refresh (content s) (args s))
  | i :: q =>
      match nth_error (args t) i with
      | Some x => let! x' := assign x q s in Ok (refresh (content t) (set (args t) i x'))
      | None => UB
      end
  end.
(** tree[..] = s with s from the same tree (243-247): copied, without updateAfterInsert *)
Fixpoint assign_same (t : subtree) (p : list nat) (s : subtree) : res subtree :=
  match p with
  | [] => Ok s
  | i :: q =>
      match nth_error (args t) i with
      | Some x => let! x' := assign_same x q s in Ok (Sub (content t) (set (args t) i x') (size t) (depth t) (cumul t))
      | None => UB
      end
  end.
(** tree[..] = node (operator=(const T&), 254, copy 497-522): the arguments stay when the arity is the same;
    otherwise new ones are made from default nodes, with _size 1, _depth 0 and _cumulative_size 0 *)
Variable dflt : N.
Definition set_node (n : N) (t : subtree) : subtree :=
  refresh n (if arity n =? arity (content t) then args t else repeat (Sub dflt [] 1 0 0) (arity n)).
Fixpoint assign_node (t : subtree) (p : list nat) (n : N) : res subtree :=
  match p with
  | [] => Ok (set_node n t)
  | i :: q =>
      match nth_error (args t) i with
      | Some x => let! x' := assign_node x q n in Ok (refresh (content t) (set (args t) i x'))
      | None => UB
      end
  end.

(** init(b, last) (565-585) reads the sequence from its end: [rl] is what is left, last element first.
    Reading before the beginning is undefined; in a debug build it throws when the beginning is reached
    by a node that has arguments. *)
Fixpoint init (fuel : nat) (rl : list N) : res (subtree * list N) :=
  match fuel with
  | 0 => NoDraw
  | S f =>
      match rl with
      | [] => UB
      | n :: r =>
          if (match r with [] => true | _ => false end) && (0 <? arity n) then Throw
          else
            let! (a, r') := (fix args (k : nat) (r : list N) : res (list subtree * list N) :=
                match k with
                | 0 => Ok ([], r)
                | S k' => let! (x, r1) := init f r in let! (l, r2) := args k' r1 in Ok (x :: l, r2)
                end) (arity n) r in
            Ok (refresh n a, r')
      end
  end.
(** parse_tree(b, e) (606-607, 233-237) *)
Definition build (seq : list N) : res subtree :=
  let! (t, _) := init (S (length seq)) (rev seq) in Ok t.

(** base_const_iterator::operator++ (801-824; base_iterator, 702-727, is the same): to the parent from its first argument, else to node 0 of the
    argument before; None is the end. [p] is the way to the current node. *)
Fixpoint next (t : subtree) (p : list nat) : res (option (list nat)) :=
  match p with
  | [] => Ok None
  | i :: q =>
      match nth_error (args t) i with
      | None => UB
      | Some x =>
          match q with
          | [] => match i with
                  | 0 => Ok (Some [])
                  | S j => match nth_error (args t) j with Some y => Ok (Some (j :: get_node y 0)) | None => UB end
                  end
          | _ => let! o := next x q in Ok (option_map (cons i) o)
          end
      end
  end.
(** from the node at [p] to eend(); [fuel] bounds the number of nodes *)
Fixpoint walk (fuel : nat) (t : subtree) (p : list nat) : res (list N) :=
  match fuel with
  | 0 => NoDraw
  | S f =>
      let! s := sub_at t p in
      let! o := next t p in
      match o with
      | None => Ok [content s]
      | Some p' => let! l := walk f t p' in Ok (content s :: l)
      end
  end.
(** the number of nodes, to bound the iteration *)
Fixpoint weight (t : subtree) : nat :=
  match t with Sub _ a _ _ _ => S ((fix go (l : list subtree) : nat := match l with [] => 0 | x :: r => weight x + go r end) a) end.
(** std::copy(ebegin(), eend(), ...) (901-904) *)
Definition nodes (t : subtree) : res (list N) := walk (S (weight t)) t (get_node t 0).
(** printOn / readFrom (eoParseTree.h:118-153) up to the text of numbers and nodes: the number of nodes, then the nodes *)
Definition print (t : subtree) : res (nat * list N) := let! l := nodes t in Ok (size t, l).
Definition read (x : nat * list N) : res subtree := if fst x <=? length (snd x) then build (firstn (fst x) (snd x)) else UB.

(** imp_select_cumulative (415-429): the node at [which] in the sizes of all the subtrees *)
Fixpoint select_cumulative (t : subtree) (which : nat) : list nat :=
  match t with
  | Sub _ a sz _ cum =>
      if cum - sz <=? which then []
      else match (fix loop (l : list subtree) (i : nat) : list nat + nat :=
              match l with
              | [] => inr which
              | x :: r =>
                  match loop r (S i) with
                  | inl p => inl p
                  | inr w => if w <? cumul x then inl (i :: select_cumulative x w) else inr (w - cumul x)
                  end
              end) a 0 with
           | inl p => p
           | inr _ => [] (* error! *)
           end
  end.

(** A tree being filled: _root and pushed, its last element first. A cleared tree (373-374, 628) has a default
    node and _size 0; a new one (217-218, 602) has _size 1. *)
Definition cleared : subtree * list subtree := (Sub dflt [] 0 0 0, []).
Definition fresh : subtree * list subtree := (Sub dflt [] 1 0 0, []).
(** push_back(t) (919-932) *)
Definition push_back (st : subtree * list subtree) (n : N) : res (subtree * list subtree) :=
  let '(root, pushed) := st in
  let pushed := if size root =? 0 then pushed else root :: pushed in
  (fix fill (k i : nat) (root : subtree) (pushed : list subtree) : res (subtree * list subtree) :=
     match k with
     | 0 => Ok (root, pushed)
     | S k' => match pushed with
               | [] => UB
               | s :: r => let! root' := assign root [i] s in fill k' (S i) root' r
               end
     end) (arity n) 0 (set_node n root) pushed.
(** copy(begin, end, back_inserter(tree)) *)
Fixpoint push_all (st : subtree * list subtree) (l : list N) : res (subtree * list subtree) :=
  match l with [] => Ok st | n :: r => let! st' := push_back st n in push_all st' r end.
(** valid() (907) *)
Definition valid (st : subtree * list subtree) : bool := match snd st with [] => true | _ => false end.

(** eoParseTree::pruneTree (eoParseTree.h:90-99): back() = operator[](size()-2), within the same tree.
    [fuel] bounds the number of turns. *)
Fixpoint prune (fuel max : nat) (t : subtree) : res subtree :=
  if max <? 1 then Ok t
  else match fuel with
       | 0 => NoDraw
       | S f => if max <? size t then let! s := nth_node t (size t - 2) in let! t' := assign_same t [] s in prune f max t' else Ok t
       end.
Definition prune_tree (max : nat) (t : subtree) : res subtree := prune (S (size t)) max t.

(** eoSubtreeXOver (eoParseTreeOp.h:64-77) *)
Definition subtree_xover (max : nat) (t1 t2 : subtree) (ds : list nat) : res (subtree * subtree * list nat) :=
  let! (i, ds) := draw (size t1) ds in
  let! (j, ds) := draw (size t2) ds in
  let! tmp := nth_node t1 i in
  let! s := nth_node t2 j in
  let! u1 := assign t1 (get_node t1 i) s in
  let! u2 := assign t2 (get_node t2 j) tmp in
  let! v1 := prune_tree max u1 in
  let! v2 := prune_tree max u2 in
  Ok (v1, v2, ds).

(** the initializer of a mutation: any function of the draws *)
Variable initializer : list nat -> res (subtree * list nat).

(** eoBranchMutation (eoParseTreeOp.h:111-125) *)
Definition branch_mutation (max : nat) (t : subtree) (ds : list nat) : res (subtree * list nat) :=
  let! (i, ds) := draw (size t) ds in
  let! (t2, ds) := initializer ds in
  let! (j, ds) := draw (size t2) ds in
  let! s := nth_node t2 j in
  let! u := assign t (get_node t i) s in
  let! v := prune_tree max u in
  Ok (v, ds).

(** do { j = random(size) } while (not good): one draw per turn, from a first draw *)
Fixpoint draw_until (fuel n : nat) (good : nat -> res bool) (ds : list nat) : res (nat * list nat) :=
  match fuel with
  | 0 => NoDraw
  | S f =>
      let! (j, ds) := draw n ds in
      let! b := good j in
      if b : bool then Ok (j, ds) else draw_until f n good ds
  end.

(** eoPointMutation (eoParseTreeOp.h:171-190) *)
Definition point_mutation (set : list N) (t : subtree) (ds : list nat) : res (subtree * list nat) :=
  let! (i, ds) := draw (size t) ds in
  let! s := nth_node t i in
  let! (j, ds) := draw_until (S (length ds)) (length set)
      (fun j => let! n := of_opt (nth_error set j) in Ok (arity n =? arity (content s))) ds in
  let! n := of_opt (nth_error set j) in
  let! u := assign_node t (get_node t i) n in
  Ok (u, ds).

(** eoExpansionMutation (eoParseTreeOp.h:228-260) *)
Fixpoint bigger_tree (fuel : nat) (ds : list nat) : res (subtree * list nat) :=
  match fuel with
  | 0 => NoDraw
  | S f => let! (t, ds) := initializer ds in if size t =? 1 then bigger_tree f ds else Ok (t, ds)
  end.
Definition expansion_mutation (max : nat) (t : subtree) (ds : list nat) : res (subtree * list nat) :=
  let! (i, ds) := draw_until (S (length ds)) (size t) (fun i => let! s := nth_node t i in Ok (arity (content s) =? 0)) ds in
  let! (t2, ds) := bigger_tree (S (length ds)) ds in
  let! (j, ds) := draw_until (S (length ds)) (size t2) (fun j => let! s := nth_node t2 j in Ok (negb (arity (content s) =? 0))) ds in
  let! s := nth_node t2 j in
  let! u := assign t (get_node t i) s in
  let! v := prune_tree max u in
  Ok (v, ds).

(** eoCollapseSubtreeMutation (eoParseTreeOp.h:295-323) *)
Definition collapse_mutation (max : nat) (t : subtree) (ds : list nat) : res (subtree * list nat) :=
  let! (i, ds) := draw_until (S (length ds)) (size t)
      (fun i => let! s := nth_node t i in Ok (negb ((arity (content s) =? 0) && (1 <? size t)))) ds in
  let! (t2, ds) := initializer ds in
  let! (j, ds) := draw_until (S (length ds)) (size t2) (fun j => let! s := nth_node t2 j in Ok (arity (content s) =? 0)) ds in
  let! s := nth_node t2 j in
  let! u := assign t (get_node t i) s in
  let! v := prune_tree max u in
  Ok (v, ds).

(** eoHoistMutation (eoParseTreeOp.h:358-375): a copy of a subtree, then assigned to the tree; the copy is
    another tree, so updateAfterInsert is run *)
Definition hoist_mutation (t : subtree) (ds : list nat) : res (subtree * list nat) :=
  let! (i, ds) := draw (size t) ds in
  let! s := nth_node t i in
  let! u := assign t [] s in
  Ok (u, ds).

(** eoParseTreeDepthInit (eoParseTreeDepthInit.h:47-171). [set]: the nodes sorted by arity by the constructor;
    last_terminal: the number of nodes in front without arguments *)
Fixpoint last_terminal (set : list N) : nat :=
  match set with
  | n :: r => if 0 <? arity n then 0 else S (last_terminal r)
  | [] => 0
  end.
(** begin() + random(n) dereferenced; random(0) is 0 *)
Definition pick (set : list N) (from n : nat) (ds : list nat) : res (N * list nat) :=
  let! (k, ds) := draw n ds in
  let! x := of_opt (nth_error set (from + (if n =? 0 then 0 else k))) in Ok (x, ds).
(** generate (123-162): [acc] is the sequence, to which nodes are added in front. the_max is an int: 0 and the
    negative numbers, from which 1 is never reached, are 0 here. *)
Fixpoint generate (fuel : nat) (set : list N) (grow : bool) (the_max : nat) (acc : list N) (ds : list nat) : res (list N * list nat) :=
  match fuel with
  | 0 => NoDraw
  | S f =>
      if the_max =? 1 then
        let! (n, ds) := pick set 0 (last_terminal set) ds in Ok (n :: acc, ds)
      else
        let! (n, ds) := (if grow then pick set 0 (length set) ds
                         else pick set (last_terminal set) (length set - last_terminal set) ds) in
        (fix args (k : nat) (acc : list N) (ds : list nat) : res (list N * list nat) :=
           match k with
           | 0 => Ok (acc, ds)
           | S k' => let! (acc1, ds1) := generate f set grow (the_max - 1) acc ds in args k' acc1 ds1
           end) (arity n) (n :: acc) ds
  end.
(** operator() (100-121): the tree, and the current depth and the grow flag for the next one *)
Record depth_init := DInit { d_set : list N; d_max : nat; d_ramped : bool }.
Definition init_tree (fuel : nat) (d : depth_init) (st : nat * bool) (ds : list nat) : res (subtree * (nat * bool) * list nat) :=
  let '(cur, grow) := st in
  let! (sequence, ds) := generate fuel (d_set d) grow cur [] ds in
  let! t := build sequence in
  let st' := if d_ramped d then ((if grow then if 2 <? cur then cur - 1 else d_max d else cur), negb grow) else st in
  Ok (t, st', ds).
End Gp.
