(** Model of the custom topologies of smp (smp/src/topology/customBooleanTopology.cpp, customStochasticTopology.cpp), of its
    bidirectional map (smp/src/bimap.cpp) with the table of the islands (smp/src/islandModel.cpp), and of the continuator
    shared by islands (smp/src/sharedFitContinue.cpp). *)
From Coq Require Import List Arith Bool ZArith QArith.
From Verif Require Import Lib Outcome ReplModel PopModel AlgoModel.
From Coq Require Import List.
Import ListNotations.
Close Scope Q_scope.
Open Scope nat_scope.

(** ** reading a matrix *)
(** a line of the file is the list of its words separated by white space: numbers or not. operator>> stops at the first word
    that is not a number (a number directly followed by other characters is not modelled) *)
Inductive token {T} := Num (x : T) | Other.
Arguments token : clear implicits.
Fixpoint read_line {T} (l : list (token T)) : list T :=
  match l with Num x :: r => x :: read_line r | _ => [] end.
(** the loop over the lines (customBooleanTopology.cpp:54-82, customStochasticTopology.cpp:54-87); [size]: [None] before the
    first line, [conv]: what is stored for a number *)
Fixpoint read_lines {T U} (conv : T -> U) (size : option nat) (matrix : list (list U)) (lines : list (list (token T))) : res (list (list U)) :=
  match lines with
  | [] => Ok matrix
  | l :: r =>
      let v := map conv (read_line l) in
      let n := match size with None => length v | Some n => n end in
      if negb (length v =? n) && negb (length v =? 0) then Throw
      else read_lines conv (Some n) (if length v =? 0 then matrix else matrix ++ [v]) r
  end.
(** the constructor on a file that can be opened: then every line must be as long as there are lines (84-87; 89-92) *)
Definition read_matrix {T U} (conv : T -> U) (lines : list (list (token T))) : res (list (list U)) :=
  let! m := read_lines conv None [] lines in
  if forallb (fun v => length v =? length m) m then Ok m else Throw.
(** (bool) temp (customBooleanTopology.cpp:65) *)
Definition to_bool (x : Z) : bool := negb (x =? 0)%Z.
(** the clipping of customStochasticTopology.cpp:65-70 *)
Definition clip (x : Q) : Q := if qlt x 0 then 0%Q else if qlt 1 x then 1%Q else x.
Definition boolean_topology (lines : list (list (token Z))) : res (list (list bool)) := read_matrix to_bool lines.
Definition stochastic_topology (lines : list (list (token Q))) : res (list (list Q)) := read_matrix clip lines.

(** ** using it *)
(** _matrix[i][j] *)
Definition cell {U} (m : list (list U)) (i j : nat) : res U := let! r := of_opt (nth_error m i) in of_opt (nth_error r j).
(** getIdNeighbors (customBooleanTopology.cpp:97-105) *)
Fixpoint neighbors_from (m : list (list bool)) (id : nat) (js : list nat) : res (list nat) :=
  match js with [] => Ok [] | j :: r => let! b := cell m id j in let! l := neighbors_from m id r in Ok (if b then j :: l else l) end.
Definition boolean_neighbors (m : list (list bool)) (id : nat) : res (list nat) := neighbors_from m id (seq 0 (length m)).
(** getIdNeighbors (customStochasticTopology.cpp:102-113): one number in [0,1) is drawn for each node *)
Fixpoint drawn_from (m : list (list Q)) (id : nat) (js : list nat) (us : list Q) : res (list nat) :=
  match js with
  | [] => Ok []
  | j :: r => let! p := cell m id j in
      match us with [] => NoDraw | u :: us' => let! l := drawn_from m id r us' in Ok (if qlt u p then j :: l else l) end
  end.
Definition stochastic_neighbors (m : list (list Q)) (id : nat) (us : list Q) : res (list nat) := drawn_from m id (seq 0 (length m)) us.
(** construct (customBooleanTopology.cpp:107-110, customStochasticTopology.cpp:115-118), compiled without assertions *)
Definition construct {U} (m : list (list U)) (nbNode : nat) : res (list (list U)) := Ok m.
(** _matrix[i][j] = zero *)
Definition clear {U} (zero : U) (m : list (list U)) (i j : nat) : res (list (list U)) :=
  let! r := of_opt (nth_error m i) in let! r' := of_opt (upd r j zero) in of_opt (upd m i r').
(** isolateNode (customBooleanTopology.cpp:112-122, customStochasticTopology.cpp:120-130) *)
Fixpoint isolate_from {U} (zero : U) (m : list (list U)) (id : nat) (is : list nat) : res (list (list U)) :=
  match is with [] => Ok m | i :: r => let! m1 := clear zero m id i in let! m2 := clear zero m1 i id in isolate_from zero m2 id r end.
Definition isolate {U} (zero : U) (m : list (list U)) (id : nat) : res (list (list U)) := isolate_from zero m id (seq 0 (length m)).

(** ** the bidirectional map; std::map is a list of pairs with distinct keys *)
Fixpoint put {V} (m : list (nat * V)) (k : nat) (v : V) : list (nat * V) :=
  match m with [] => [(k, v)] | (k', v') :: r => if k =? k' then (k, v) :: r else (k', v') :: put r k v end.
Fixpoint get {V} (m : list (nat * V)) (k : nat) : option V :=
  match m with [] => None | (k', v) :: r => if k =? k' then Some v else get r k end.
Record bimap := Bimap { right : list (nat * nat); left : list (nat * nat) }.
(** add (bimap.cpp:31-35) *)
Definition add (m : bimap) (a b : nat) : bimap := Bimap (put (right m) a b) (put (left m) b a).
(** size, empty (bimap.cpp:70-79) *)
Definition size (m : bimap) : nat := length (left m).
Definition is_empty (m : bimap) : bool := match left m with [] => true | _ => false end.
(** createTable (islandModel.cpp:194-206): the islands are given by their addresses *)
Fixpoint create_from (m : bimap) (id : nat) (islands : list nat) : bimap :=
  match islands with [] => m | i :: r => create_from (add m id i) (S id) r end.
Definition create_table (islands : list nat) : bimap := create_from (Bimap [] []) 0 islands.

(** ** SharedFitContinue::operator() (sharedFitContinue.cpp:30-40), each call in one step; [found]: the shared flag *)
Section Shared.
Variable F : Type.
Variable ltb : F -> F -> bool.
Definition shared_call (optimum : F) (found : bool) (pop : list F) : res (bool * bool) :=
  if found then Ok (false, found)
  else let! f := fit_continue F ltb optimum pop in Ok (f, f).
(** the answers to a sequence of calls, from any islands *)
Fixpoint shared_calls (optimum : F) (found : bool) (pops : list (list F)) : res (list bool) :=
  match pops with [] => Ok [] | p :: r => let! (b, found') := shared_call optimum found p in let! l := shared_calls optimum found' r in Ok (b :: l) end.
End Shared.
