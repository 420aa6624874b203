(** Model of more benchmark problems of /repo/problems/eval: the n queens, the building-block royal road, the long k-path, and the instances of NK, NKp and NKq landscapes.
    Doubles are exact rationals; unsigned arithmetic is modulo 2^32 where it is written [w32]. *)
From Coq Require Import ZArith QArith List Arith Bool.
From Verif Require Import Lib Outcome EvalModel.
From Coq Require Import List.
Import ListNotations.
Open Scope nat_scope.

Definition w32 (z : Z) : Z := (z mod 2 ^ 32)%Z.

(** *** queenEval::operator() (problems/eval/queenEval.h:47-54). The counter fit is unbounded here. On an empty board, size() - 1 is the greatest
    size_t, which the unsigned int i never reaches: the loop does not end. *)
Definition queen_eval (q : list Z) : res Z :=
  match q with
  | [] => NoDraw
  | _ =>
      for_in (seq 0 (length q - 1)) (fun i fit => for_in (seq (S i) (length q - S i)) (fun j fit =>
        let! a := gene q i in
        let! b := gene q j in
        let ij := (Z.of_nat j - Z.of_nat i)%Z in
        Ok (if (w32 (a + ij) =? w32 b)%Z || (w32 (a - ij) =? w32 b)%Z then (fit + 1)%Z else fit)) fit) 0%Z
  end.

(** *** BBRoyalRoadEval: [b] blocks of [k] bits, the targets and their weights in the order of addTarget (bbRoyalRoadEval.h:57-60) *)
Record bb := Bb { bb_b : nat; bb_k : nat; bb_targets : list (list bool); bb_weights : list Q }.
Definition add_target (p : bb) (t : list bool) (w : Q) : bb := Bb (bb_b p) (bb_k p) (bb_targets p ++ [t]) (bb_weights p ++ [w]).
(** operator() (66-92) *)
Definition bb_eval (p : bb) (x : list bool) : res Q :=
  for_in (seq 0 (bb_b p)) (fun i sum =>
    let offset := i * bb_k p in
    for_in (seq 0 (length (bb_targets p))) (fun t sum =>
      let! d := for_in (seq 0 (bb_k p)) (fun j d =>
        let! a := gene x (offset + j) in
        let! c := entry (bb_targets p) t j in
        Ok (if Bool.eqb a c then d else S d)) 0 in
      if d =? 0 then let! w := gene (bb_weights p) t in Ok (sum + w)%Q
      else Ok (sum + 1 / (1 + inject_Z (Z.of_nat d)))%Q) sum) 0%Q.

(** *** LongKPathEval *)
(** while (c < n && solution[p - 1 - c] == v) c++; an index before 0 wraps to one outside *)
Fixpoint down (n : nat) (v : bool) (x : list bool) (p : nat) : res nat :=
  match n with
  | 0 => Ok 0
  | S n' =>
      match p with
      | 0 => UB
      | S p' => let! b := gene x p' in if Bool.eqb b v then let! c := down n' v x p' in Ok (S c) else Ok 0
      end
  end.
(** nbOnesZeros (longKPathEval.h:56-68): n0 and n1 *)
Definition nb_ones_zeros (k : nat) (x : list bool) (l : nat) : res (nat * nat) :=
  let! n0 := down k false x l in
  let! n1 := down (k - n0) true x (l - n0) in
  Ok (n0, n1).
(** while (i < i0 + n && solution[i] == v) i++, from i0: how many *)
Fixpoint up (n : nat) (v : bool) (x : list bool) (i : nat) : res nat :=
  match n with
  | 0 => Ok 0
  | S n' => let! b := gene x i in if Bool.eqb b v then let! c := up n' v x (S i) in Ok (S c) else Ok 0
  end.
(** final (78-96); when l < k, l - k wraps to a bound that no index within the solution reaches *)
Definition final (k : nat) (x : list bool) (l : nat) : res bool :=
  if l =? 1 then gene x 0
  else
    let bound := if l <? k then S (length x) else l - k in
    let! i := up bound false x 0 in
    if i <? bound then Ok false
    else let! c := up (l - i) true x i in Ok (i + c =? l).
(** 1 << e on int *)
Definition shl1 (e : nat) : res Z := if e <? 31 then Ok (2 ^ Z.of_nat e)%Z else UB.
(** rank (105-138): whether in the path, and the position; [fuel] bounds the recursion (endless when k is 0) *)
Fixpoint kp_rank (fuel k : nat) (x : list bool) (l : nat) : res (bool * Z) :=
  match fuel with
  | 0 => NoDraw
  | S f =>
      if l =? 1 then let! b := gene x 0 in Ok (true, if b : bool then 1%Z else 0%Z)
      else
        let! (n0, n1) := nb_ones_zeros k x l in
        if n0 =? k then kp_rank f k x (l - k)
        else if n1 =? k then
          let! (inp, r) := kp_rank f k x (l - k) in
          let! s := shl1 ((l - 1) / k) in
          Ok (inp, w32 (Z.of_nat (k + 1) * s - Z.of_nat k - r))
        else if n0 + n1 =? k then
          let! fin := final k x (l - k) in
          if fin : bool then
            let! s := shl1 ((l - k - 1) / k) in
            Ok (true, w32 (Z.of_nat (k + 1) * s - Z.of_nat k + Z.of_nat n1))
          else Ok (false, 0%Z)
        else Ok (false, 0%Z)
  end.
(** nbZero (146-154) *)
Definition nb_zero (x : list bool) : res Z := for_in (seq 0 (length x)) (fun i r => let! b := gene x i in Ok (if b : bool then r else (r + 1)%Z)) 0%Z.
(** operator() (176-185) *)
Definition kp_eval (k : nat) (x : list bool) : res Z :=
  let! (inp, r) := kp_rank (S (length x)) k x (length x) in
  if inp : bool then Ok (Z.of_nat (length x) + r)%Z else nb_zero x.

(** *** NK landscapes: the tables of a random instance *)
(** contribution() of NKq (nkqLandscapesEval.h:205-207): random(q) / (q - 1); None is not a number (0 / 0). For q = 0 the divisor wraps to 2^32 - 1. *)
Definition nkq_contribution (q : nat) (ds : list nat) : res (option Q * list nat) :=
  let! (r, ds) := draw q ds in
  Ok (if q =? 0 then Some 0%Q else if q =? 1 then None else Some (inject_Z (Z.of_nat r) / inject_Z (Z.of_nat (q - 1)))%Q, ds).
(** contribution() of NKp (nkpLandscapesEval.h:206-211) and of NK (nkLandscapesEval.h:388-390): the draws are those of uniform() *)
Definition draw_uniform (us : list Q) : res (Q * list Q) := match us with [] => NoDraw | u :: us => Ok (u, us) end.
Definition nk_contribution (us : list Q) : res (option Q * list Q) := let! (u, us) := draw_uniform us in Ok (Some u, us).
Definition nkp_contribution (p : Q) (us : list Q) : res (option Q * list Q) :=
  let! (u, us) := draw_uniform us in
  if negb (Qle_bool p u) then Ok (Some 0%Q, us) else let! (v, us) := draw_uniform us in Ok (Some v, us).
(** generateTables (377-382): the table of each bit, each value in turn *)
Section Tables.
Context {D : Type}.
Variable contribution : D -> res (option Q * D).
Fixpoint gen_row (n : nat) (d : D) : res (list (option Q) * D) :=
  match n with 0 => Ok ([], d) | S n' => let! (c, d) := contribution d in let! (r, d) := gen_row n' d in Ok (c :: r, d) end.
Fixpoint gen_tables (n k : nat) (d : D) : res (list (list (option Q)) * D) :=
  match n with 0 => Ok ([], d) | S n' => let! (r, d) := gen_row (2 ^ (k + 1)) d in let! (t, d) := gen_tables n' k d in Ok (r :: t, d) end.
End Tables.

(** *** files of instances: words, and ends of lines *)
Definition word := list nat.
Inductive item := W (w : word) | Eol.
(** file >> s: s is kept when no word is left *)
Fixpoint next_word (file : list item) (s : word) : word * list item :=
  match file with [] => (s, []) | W w :: r => (w, r) | Eol :: r => next_word r s end.
(** getline: the rest of the line *)
Fixpoint skip_line (file : list item) : list item :=
  match file with [] => [] | W _ :: r => skip_line r | Eol :: r => r end.
(** s[0], 0 for the empty string *)
Definition first_char (s : word) : nat := hd 0 s.
Definition ch_c : nat := 99.
Definition ch_p : nat := 112.
Definition w_links : word := [108; 105; 110; 107; 115].
Definition w_tables : word := [116; 97; 98; 108; 101; 115].
(** the comments: the first word that does not begin with c; [fuel] bounds the turns. At the end of the file s is kept, and the loop does not end. *)
Fixpoint comments (fuel : nat) (s : word) (file : list item) : res (word * list item) :=
  match fuel with
  | 0 => NoDraw
  | S f => if first_char s =? ch_c then let (s, file) := next_word (skip_line file) s in comments f s file else Ok (s, file)
  end.
(** file >> a number, [num] being the value of a word; 0 at the end of the file *)
Definition next_num (num : word -> Q) (file : list item) : Q * list item := let (w, r) := next_word file [] in (num w, r).
Fixpoint next_nums (n : nat) (num : word -> Q) (file : list item) : list Q * list item :=
  match n with 0 => ([], file) | S n' => let (v, file) := next_num num file in let (l, file) := next_nums n' num file in (v :: l, file) end.
(** load (nkLandscapesEval.h:138-205 with loadLinks 212-217 and loadTables 224-228; nkpLandscapesEval.h:99-166 and nkqLandscapesEval.h:98-165 are the same with another magic word and one more parameter):
    the parameters, then the links and the tables, in the order of the file. The word tested after the parameters and after the links is the one read before them. *)
Definition nk_load (fuel : nat) (magic : word) (nparams : nat) (num : word -> Q) (file : list item) : res (list Q * list Q * list Q) :=
  let (s, file) := next_word file [] in
  let! (s, file) := comments fuel s file in
  if negb (first_char s =? ch_p) then Throw
  else
    let (s, file) := next_word file s in
    if negb (if list_eq_dec Nat.eq_dec s magic then true else false) then Throw
    else
      let (params, file) := next_nums nparams num file in
      let n := Z.to_nat (Qnum (nth 0 params 0%Q)) in
      let k := Z.to_nat (Qnum (nth 1 params 0%Q)) in
      if negb (first_char s =? ch_p) then Throw
      else
        let (s, file) := next_word file s in
        if negb (if list_eq_dec Nat.eq_dec s w_links then true else false) then Throw
        else
          let (ls, file) := next_nums (n * (k + 1)) num file in
          if negb (first_char s =? ch_p) then Throw
          else
            let (s, file) := next_word file s in
            if negb (if list_eq_dec Nat.eq_dec s w_tables then true else false) then Throw
            else let (ts, _) := next_nums (n * 2 ^ (k + 1)) num file in Ok (params, ls, ts).
(** the magic words NK, NKp, NKq *)
Definition w_nk : word := [78; 75].
Definition w_nkp : word := [78; 75; 112].
Definition w_nkq : word := [78; 75; 113].
(** save (235-259): [show] writes a number; the name of the file is words without blanks *)
Definition nk_save (show : Q -> word) (name : word) (magic : word) (params ls : list Q) (ts : list (list Q)) : list item :=
  [W [99]; W [110; 97; 109; 101]; W [111; 102]; W [116; 104; 101]; W [102; 105; 108; 101]; W [58]; W name; Eol; W [112]; W magic] ++ map (fun v => W (show v)) params ++ [Eol; W [112]; W w_links; Eol] ++
  flat_map (fun v => [W (show v); Eol]) ls ++ [W [112]; W w_tables; Eol] ++ flat_map (fun row => map (fun v => W (show v)) row ++ [Eol]) ts.
