(** Model of strongly typed genetic programming: eo/src/gp/eoStParseTreeDepthInit.h and eo/src/gp/eoStParseTreeOp.h, on the parse trees of GpModel.
    eoStParseTreeOp.h includes <map.h>, a header from before the standard: the file is modelled as if it included <map>. *)
From Coq Require Import List Arith Bool.
From Verif Require Import Lib Outcome GpModel.
From Coq Require Import List.
Import ListNotations.
Open Scope nat_scope.

Section Stg.
(** Node::arity(), Node::type() and Node::type(i); the types, ints in the code, are numbers here *)
Variables (N : Type) (arity ty : N -> nat) (atype : N -> nat -> nat).

(** *** eoStParseTreeDepthInit *)
(** node[type][TERMINAL], node[type][NONTERMINAL] and node[type][ALL] as the constructor fills them (eoStParseTreeDepthInit.h:94-119): the nodes, in the order given;
    a type that no node has gets an empty vector at its first use *)
Definition terminals (set : list N) (k : nat) : list N := filter (fun n => (ty n =? k) && (arity n =? 0)) set.
Definition nonterminals (set : list N) (k : nat) : list N := filter (fun n => (ty n =? k) && negb (arity n =? 0)) set.
Definition all_of (set : list N) (k : nat) : list N := filter (fun n => ty n =? k) set.
(** the constructor throws without nodes (88-91) *)
Definition st_construct (set : list N) : res (list N) := match set with [] => Throw | _ => Ok set end.

(** generate (143-182): whether the tree is good, and the sequence, to which nodes are added in front. the_max is an int: 0 and the
    negative numbers, from which 1 is never reached, are 0 here. *)
Fixpoint st_generate (fuel : nat) (set : list N) (grow : bool) (the_max request : nat) (acc : list N) (ds : list nat) : res (bool * list N * list nat) :=
  match fuel with
  | 0 => NoDraw
  | S f =>
      if the_max =? 1 then
        match terminals set request with
        | [] => Ok (false, acc, ds)
        | ts => let! (n, ds) := pick N ts 0 (length ts) ds in Ok (true, n :: acc, ds)
        end
      else
        let from := if grow then all_of set request else nonterminals set request in
        let! (n, ds) := pick N from 0 (length from) ds in
        (fix args (k i : nat) (ok : bool) (acc : list N) (ds : list nat) : res (bool * list N * list nat) :=
           match k with
           | 0 => Ok (ok, acc, ds)
           | S k' => let! (b, acc1, ds1) := st_generate f set grow (the_max - 1) (atype n i) acc ds in args k' (S i) (ok && b) acc1 ds1
           end) (arity n) 0 true (n :: acc) ds
  end.
(** operator() (129-141): a new sequence until the tree is good; [tries] bounds the turns, [fuel] the depth of the recursion *)
Record st_depth_init := StInit { st_set : list N; st_max : nat; st_return : nat; st_grow : bool }.
Fixpoint st_sequence (tries fuel : nat) (d : st_depth_init) (ds : list nat) : res (list N * list nat) :=
  match tries with
  | 0 => NoDraw
  | S tr =>
      let! (good, sequence, ds) := st_generate fuel (st_set d) (st_grow d) (st_max d) (st_return d) [] ds in
      if good : bool then Ok (sequence, ds) else st_sequence tr fuel d ds
  end.
Definition st_init (tries fuel : nat) (d : st_depth_init) (ds : list nat) : res (subtree N * list nat) :=
  let! (sequence, ds) := st_sequence tries fuel d ds in
  let! t := build N arity sequence in
  Ok (t, ds).

(** *** the operators *)
(** get_possible_nodes (eoStParseTreeOp.h:40-49): the numbers of the nodes of a type *)
Definition possible_nodes (t : subtree N) (k : nat) : res (list nat) :=
  (fix loop (todo n : nat) : res (list nat) :=
     match todo with
     | 0 => Ok []
     | S r =>
         let! s := nth_node N t n in
         let! l := loop r (S n) in
         Ok (if k =? ty (content N s) then n :: l else l)
     end) (size N t) 0.

(** the points of eoStSubtreeXOver (81-100): nodes of the first tree not tried before, until the second has a node of the type or all were tried.
    [test]: those tried. Returned: the number of the node, and the possible nodes of the second tree. *)
Fixpoint xover_point (fuel : nat) (t1 t2 : subtree N) (test : list nat) (ds : list nat) : res (nat * list nat * list nat) :=
  match fuel with
  | 0 => NoDraw
  | S f =>
      let! (i, ds) := draw_until (S (length ds)) (size N t1) (fun i => Ok (negb (existsb (Nat.eqb i) test))) ds in
      let test := i :: test in
      let! s := nth_node N t1 i in
      let! nodes := possible_nodes t2 (ty (content N s)) in
      match nodes with
      | [] => if length test <? size N t1 then xover_point f t1 t2 test ds else Ok (i, nodes, ds)
      | _ => Ok (i, nodes, ds)
      end
  end.
(** eoStSubtreeXOver (79-123), with the value returned; max_length is kept but never used *)
Definition st_subtree_xover (max : nat) (t1 t2 : subtree N) (ds : list nat) : res (bool * subtree N * subtree N * list nat) :=
  let! (i, nodes, ds) := xover_point (size N t1) t1 t2 [] ds in
  match nodes with
  | [] => Ok (true, t1, t2, ds)
  | _ =>
      let! (n, ds) := draw (length nodes) ds in
      let! j := of_opt (nth_error nodes n) in
      let! tmp := nth_node N t1 i in
      let! s := nth_node N t2 j in
      let! u1 := assign N t1 (get_node N t1 i) s in
      let! u2 := assign N t2 (get_node N t2 j) tmp in
      Ok (true, u1, u2, ds)
  end.

(** the initializer of a mutation: any function of the draws *)
Variable initializer : list nat -> res (subtree N * list nat).
(** eoStBranchMutation (157-184): trees of the initializer until one has a node of the type; [tries] bounds the turns; max_length is never used *)
Fixpoint branch_source (tries k : nat) (ds : list nat) : res (subtree N * list nat * list nat) :=
  match tries with
  | 0 => NoDraw
  | S tr =>
      let! (t2, ds) := initializer ds in
      let! nodes := possible_nodes t2 k in
      match nodes with [] => branch_source tr k ds | _ => Ok (t2, nodes, ds) end
  end.
Definition st_branch_mutation (tries max : nat) (t : subtree N) (ds : list nat) : res (bool * subtree N * list nat) :=
  let! (i, ds) := draw (size N t) ds in
  let! x := nth_node N t i in
  let! (t2, nodes, ds) := branch_source tries (ty (content N x)) ds in
  let! (n, ds) := draw (length nodes) ds in
  let! j := of_opt (nth_error nodes n) in
  let! s := nth_node N t2 j in
  let! u := assign N t (get_node N t i) s in
  Ok (true, u, ds).

(** eoStPointMutation: node[type][arity] as the constructor fills it (206-225), and operator() (237-248) *)
Definition same_kind (set : list N) (k a : nat) : list N := filter (fun n => (ty n =? k) && (arity n =? a)) set.
Definition st_point_mutation (dflt : N) (set : list N) (t : subtree N) (ds : list nat) : res (bool * subtree N * list nat) :=
  let! (i, ds) := draw (size N t) ds in
  let! x := nth_node N t i in
  let from := same_kind set (ty (content N x)) (arity (content N x)) in
  let! (n, ds) := pick N from 0 (length from) ds in
  let! u := assign_node N arity dflt t (get_node N t i) n in
  Ok (true, u, ds).

(** eoStHoistMutation (285-303): the copy is another tree, so updateAfterInsert is run; the initializer and max_length are never used *)
Definition st_hoist_mutation (max : nat) (t : subtree N) (ds : list nat) : res (bool * subtree N * list nat) :=
  let! r := nth_node N t (size N t - 1) in
  let! nodes := possible_nodes t (ty (content N r)) in
  let! (n, ds) := draw (length nodes) ds in
  let! i := of_opt (nth_error nodes n) in
  let! s := nth_node N t i in
  let! u := assign N t [] s in
  Ok (true, u, ds).
End Stg.
