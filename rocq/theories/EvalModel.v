(** Model of the benchmark evaluations of /repo/problems/eval and of their incremental versions in
    /repo/mo/src/problems/eval. Fitnesses and matrix entries are exact: [Z] for the integer problems
    (machine overflow is not modelled), [Q] for the NK landscapes (rounding is not modelled). *)
From Coq Require Import List Arith Bool ZArith NArith QArith.
From Verif Require Import Outcome Lib NeighModel BitsModel LsModel.
From Coq Require Import List.
Import ListNotations.
Open Scope nat_scope.

(** a for loop over the indices [l] *)
Fixpoint for_in {A B} (l : list A) (body : A -> B -> res B) (acc : B) : res B :=
  match l with
  | [] => Ok acc
  | k :: r => let! acc' := body k acc in for_in r body acc'
  end.
(** reading a bit of the solution, an entry of a matrix *)
Definition gene {A} (x : list A) (j : nat) : res A := of_opt (nth_error x j).
Definition entry {A} (m : list (list A)) (i j : nat) : res A := of_opt (obind (nth_error m i) (fun r => nth_error r j)).
Definition put {A} (m : list (list A)) (i j : nat) (v : A) : res (list (list A)) :=
  of_opt (obind (nth_error m i) (fun r => obind (upd r j v) (fun r' => upd m i r'))).
Notation zsol := (sol (list bool) Z).

(** ** OneMax *)
(** oneMaxEval::operator() (problems/eval/oneMaxEval.h:47-52) *)
Definition onemax_eval (x : list bool) : res Z :=
  for_in (seq 0 (length x)) (fun i sum => let! b := gene x i in Ok (sum + Z.b2z b)%Z) 0%Z.
(** moOneMaxIncrEval::operator() (mo/src/problems/eval/moOneMaxIncrEval.h:49-54) *)
Definition onemax_incr (s : zsol) (i : nat) : res Z :=
  let! b := gene (geno s) i in
  let! f := fitness s in
  Ok (if b then f - 1 else f + 1)%Z.
(** moOneMaxBitsIncrEval::operator() (moOneMaxBitsIncrEval.h:50-60) *)
Definition onemax_bits_incr (s : zsol) (bits : list nat) : res Z :=
  let! delta := for_in bits (fun b d => let! v := gene (geno s) b in Ok (if v then d - 1 else d + 1)%Z) 0%Z in
  let! f := fitness s in Ok (f + delta)%Z.

(** ** Royal Road *)
(** while (j < k && _solution[offset + j]) j++, from [j]; [n] is the fuel k - j *)
Fixpoint run_of_ones (n : nat) (x : list bool) (pos : nat) : res nat :=
  match n with
  | 0 => Ok 0
  | S m => let! b := gene x pos in if b then let! c := run_of_ones m x (S pos) in Ok (S c) else Ok 0
  end.
(** RoyalRoadEval::operator() (problems/eval/royalRoadEval.h:52-71) *)
Definition royal_eval (k : nat) (x : list bool) : res Z :=
  if k =? 0 then UB else
  for_in (seq 0 (length x / k)) (fun i sum => let! j := run_of_ones k x (i * k) in Ok (if j =? k then (sum + 1)%Z else sum)) 0%Z.
(** moRoyalRoadIncrEval::operator() (mo/src/problems/eval/moRoyalRoadIncrEval.h:56-80) *)
Definition royal_incr (k : nat) (s : zsol) (i : nat) : res Z :=
  if k =? 0 then UB else
  let offset := i / k * k in
  let! j := run_of_ones k (geno s) offset in
  if j =? k then let! f := fitness s in Ok (f - 1)%Z
  else
    let! b := gene (geno s) i in
    if negb b && (offset + j =? i) then
      let! c := run_of_ones (k - S j) (geno s) (offset + S j) in
      let! f := fitness s in Ok (if S j + c =? k then (f + 1)%Z else f)
    else fitness s.

(** ** UBQP *)
(** the constructor's normalisation (problems/eval/ubqpEval.h:136-141) *)
Definition ubqp_normalise (n : nat) (q : list (list Z)) : res (list (list Z)) :=
  for_in (seq 1 (n - 1)) (fun i q => for_in (seq 0 i) (fun j q =>
    let! a := entry q i j in let! b := entry q j i in
    let! q1 := put q i j (a + b)%Z in put q1 j i 0%Z) q) q.
(** operator() (163-174) *)
Definition ubqp_eval (n : nat) (q : list (list Z)) (x : list bool) : res Z :=
  for_in (seq 0 n) (fun i fit =>
    let! b := gene x i in
    if b then for_in (seq 0 (S i)) (fun j fit =>
      let! c := gene x j in
      if c then let! v := entry q i j in Ok (fit + v)%Z else Ok fit) fit
    else Ok fit) 0%Z.
(** the change of fitness of setting bit [i]: the two loops of moUBQPSimpleIncrEval::operator()
    (mo/src/problems/eval/moUBQPSimpleIncrEval.h:63-71) *)
Definition ubqp_gain (n : nat) (q : list (list Z)) (x : list bool) (i : nat) : res Z :=
  let! d := entry q i i in
  let! d := for_in (seq 0 i) (fun j d => let! c := gene x j in if c then let! v := entry q i j in Ok (d + v)%Z else Ok d) d in
  for_in (seq (S i) (n - S i)) (fun j d => let! c := gene x j in if c then let! v := entry q j i in Ok (d + v)%Z else Ok d) d.
(** moUBQPSimpleIncrEval::operator() (59-78) *)
Definition ubqp_incr (n : nat) (q : list (list Z)) (s : zsol) (i : nat) : res Z :=
  let! d := ubqp_gain n q (geno s) i in
  let! b := gene (geno s) i in
  let! f := fitness s in Ok (if b then f - d else f + d)%Z.
(** moUBQPBitsIncrEval::operator() (moUBQPBitsIncrEval.h:60-94). The solution is moved bit after bit,
    then moved back: the second component is the solution after the call. *)
Definition ubqp_bits_incr (n : nat) (q : list (list Z)) (s : zsol) (bits : list nat) : res (Z * list bool) :=
  let! (delta, x) := for_in bits (fun b '(delta, x) =>
    let! d := ubqp_gain n q x b in
    let! v := gene x b in
    let! x' := bit_move b x in
    Ok ((if v then delta - d else delta + d)%Z, x')) (0%Z, geno s) in
  let! x' := bits_move bits x in
  let! f := fitness s in Ok ((f + delta)%Z, x').
(** moUBQPdoubleIncrEvaluation (moUBQPdoubleIncrEvaluation.h) *)
Record dincr := Dincr { firstEval : bool; deltaFitness : list Z }.
(** the constructor's table is uninitialised (moDoubleIncrEvaluation.h:59): any list of the right size *)
Definition dincr_init (d : dincr) : dincr := Dincr true (deltaFitness d).
(** operator()(solution) (80-127); [moved]: searchExplorer->moveApplied() and the index of the selected
    neighbor *)
Definition dincr_explore (n : nat) (q : list (list Z)) (x : list bool) (moved : option nat) (d : dincr) : res dincr :=
  if firstEval d then
    let! t := for_in (seq 0 n) (fun i t =>
      let! g := ubqp_gain n q x i in
      let! b := gene x i in of_opt (upd t i (if b then - g else g)%Z)) (deltaFitness d) in
    Ok (Dincr false t)
  else match moved with
  | None => Ok d
  | Some m =>
      let! t := for_in (seq 0 n) (fun i t =>
        let! old := gene t i in
        if i =? m then of_opt (upd t i (- old)%Z)
        else
          let! bi := gene x i in
          let! bm := gene x m in
          let! v := if i <? m then entry q m i else entry q i m in
          of_opt (upd t i (if Bool.eqb bi bm then old - v else old + v)%Z)) (deltaFitness d) in
      Ok (Dincr false t)
  end.
(** moDoubleIncrNeighborhoodEval::operator() (mo/src/eval/moDoubleIncrNeighborhoodEval.h:58-61) *)
Definition dincr_eval (d : dincr) (s : zsol) (i : nat) : res Z :=
  let! f := fitness s in let! v := gene (deltaFitness d) i in Ok (f + v)%Z.
(** a search: each turn evaluates the neighborhood, then moves along a bit ([Some i]) or does not
    move; it ends with an evaluation of the neighborhood *)
Fixpoint dincr_search (n : nat) (q : list (list Z)) (turns : list (option nat)) (x : list bool) (moved : option nat) (d : dincr) : res (list bool * dincr) :=
  let! d' := dincr_explore n q x moved d in
  match turns with
  | [] => Ok (x, d')
  | t :: r => let! x' := match t with Some i => bit_move i x | None => Ok x end in dincr_search n q r x' t d'
  end.

(** ** QAP *)
(** QAPeval::operator() (problems/eval/qapEval.h:105-113) *)
Definition qap_eval (n : nat) (a b : list (list Z)) (p : list nat) : res Z :=
  for_in (seq 0 n) (fun i cost => for_in (seq 0 n) (fun j cost =>
    let! u := entry a i j in
    let! pi := gene p i in let! pj := gene p j in
    let! v := entry b pi pj in Ok (cost + u * v)%Z) cost) 0%Z.
(** moQAPIncrEval::operator() (mo/src/problems/eval/moQAPIncrEval.h:62-79) *)
Definition qap_incr (n : nat) (a b : list (list Z)) (s : sol (list nat) Z) (ij : nat * nat) : res Z :=
  let (i, j) := ij in
  let! pi := gene (geno s) i in let! pj := gene (geno s) j in
  let! aii := entry a i i in let! ajj := entry a j j in let! aij := entry a i j in let! aji := entry a j i in
  let! bii := entry b pi pi in let! bjj := entry b pj pj in let! bij := entry b pi pj in let! bji := entry b pj pi in
  let! d := for_in (seq 0 n) (fun k d =>
    if negb (k =? i) && negb (k =? j) then
      let! pk := gene (geno s) k in
      let! aki := entry a k i in let! akj := entry a k j in let! aik := entry a i k in let! ajk := entry a j k in
      let! bki := entry b pk pi in let! bkj := entry b pk pj in let! bik := entry b pi pk in let! bjk := entry b pj pk in
      Ok (d + (aki - akj) * (bkj - bki) + (aik - ajk) * (bjk - bik))%Z
    else Ok d) ((aii - ajj) * (bjj - bii) + (aij - aji) * (bji - bij))%Z in
  let! f := fitness s in Ok (f + d)%Z.

(** ** MaxSAT *)
(** clauseEval (problems/eval/maxSATeval.h:222-237) on the literals of the clause *)
Fixpoint clause_eval (c : list Z) (x : list bool) : res bool :=
  match c with
  | [] => Ok false
  | l :: r =>
      let! v := if (0 <? l)%Z then gene x (Z.to_nat l - 1)
                else if (l <? 0)%Z then let! b := gene x (Z.to_nat (- l) - 1) in Ok (negb b) else Ok false in
      if v then Ok true else clause_eval r x
  end.
(** operator() (244-252) *)
Definition sat_eval (clauses : list (list Z)) (x : list bool) : res Z :=
  for_in (seq 0 (length clauses)) (fun i fit =>
    let! c := gene clauses i in let! v := clause_eval c x in Ok (if v then fit + 1 else fit)%Z) 0%Z.
(** adding the occurrence [nc] to variable [v]: variables[v].push_back(nc) *)
Definition push_occ (v : nat) (nc : Z) (variables : list (list Z)) : res (list (list Z)) :=
  of_opt (obind (nth_error variables v) (fun l => upd variables v (l ++ [nc]))).
(** the table of occurrences the random constructor builds (maxSATeval.h:88-92): clause [i] is entered
    as [i] for a positive literal and as [-i] for a negated one *)
Definition occ_random (clauses : list (list Z)) (nbVar : nat) : res (list (list Z)) :=
  for_in (seq 0 (length clauses)) (fun i vs =>
    let! c := gene clauses i in
    for_in c (fun l vs => if (l <? 0)%Z then push_occ (Z.to_nat (- l)) (- Z.of_nat i)%Z vs else push_occ (Z.to_nat l) (Z.of_nat i) vs) vs)
    (repeat [] (S nbVar)).
(** the one the file constructor builds (154-163): the literal is made positive before its sign is tested *)
Definition occ_file (clauses : list (list Z)) (nbVar : nat) : res (list (list Z)) :=
  for_in (seq 0 (length clauses)) (fun i vs =>
    let! c := gene clauses i in
    for_in c (fun l vs => let l' := if (l <? 0)%Z then (- l)%Z else l in
      if (l' <? 0)%Z then push_occ (Z.to_nat (- l')) (- Z.of_nat i)%Z vs else push_occ (Z.to_nat l') (Z.of_nat i) vs) vs)
    (repeat [] (S nbVar)).
(** the random constructor's choice of the literals of one clause (76-95): [nbLitteral] variables drawn
    from [var], which is permuted, and a sign for each *)
Fixpoint random_clause (nbVar j todo : nat) (var : list Z) (ds : list nat) : res (list Z * list Z * list nat) :=
  match todo with
  | 0 => Ok ([], var, ds)
  | S m =>
      if nbVar <=? j then UB else
      let! (ind, ds1) := draw (nbVar - j) ds in
      let! number := gene var ind in
      let! var1 := of_opt (swap_at var ind (nbVar - j - 1)) in
      let! (f, ds2) := draw_flip ds1 in
      let! (c, var2, ds3) := random_clause nbVar (S j) m var1 ds2 in
      Ok ((if f then - number else number)%Z :: c, var2, ds3)
  end.
Fixpoint random_clauses (nbVar nbLitteral nbClauses : nat) (var : list Z) (ds : list nat) : res (list (list Z) * list nat) :=
  match nbClauses with
  | 0 => Ok ([], ds)
  | S m =>
      let! (c, var1, ds1) := random_clause nbVar 0 nbLitteral var ds in
      let! (cs, ds2) := random_clauses nbVar nbLitteral m var1 ds1 in
      Ok (c :: cs, ds2)
  end.
(** the instance of MaxSATeval(n, m, k) (52-102) *)
Definition random_sat (nbVar nbClauses nbLitteral : nat) (ds : list nat) : res (list (list Z) * list nat) :=
  random_clauses nbVar nbLitteral nbClauses (map Z.of_nat (seq 1 nbVar)) ds.
(** moMaxSATincrEval::operator() (mo/src/problems/eval/moMaxSATincrEval.h:57-100) *)
Definition sat_incr (clauses variables : list (list Z)) (s : zsol) (bit : nat) : res Z :=
  let! modified := gene variables (S bit) in
  let! delta := for_in modified (fun nc delta =>
    let! b := gene (geno s) bit in
    let n := Z.to_nat (Z.abs nc) in
    let litt := if (nc <? 0)%Z then negb b else b in
    let! c := gene clauses n in
    if litt then
      let! x' := bit_move bit (geno s) in
      let! v := clause_eval c x' in Ok (if v then delta else delta - 1)%Z
    else
      let! v := clause_eval c (geno s) in Ok (if v then delta else delta + 1)%Z) 0%Z in
  let! f := fitness s in Ok (f + delta)%Z.

(** ** NK landscapes *)
(** an instance: N, K, links[i][0..K], tables[i][0..2^(K+1)-1] *)
Record nk := Nk { nkN : nat; nkK : nat; links : list (list nat); tables : list (list Q) }.
(** sigma (problems/eval/nkLandscapesEval.h:304-315); masks are unbounded here *)
Definition nk_sigma (p : nk) (x : list bool) (i : nat) : res N :=
  let! (acc, n) := for_in (seq 0 (S (nkK p))) (fun j '(acc, n) =>
    let! l := entry (links p) i j in
    let! b := gene x l in
    Ok (if b then N.lor acc n else acc, N.shiftl n 1)) (0%N, 1%N) in
  Ok acc.
(** operator() (287-294) *)
Definition nk_eval (p : nk) (x : list bool) : res Q :=
  let! accu := for_in (seq 0 (nkN p)) (fun i accu =>
    let! m := nk_sigma p x i in
    let! v := entry (tables p) i (N.to_nat m) in Ok (accu + v)%Q) 0%Q in
  Ok (accu / inject_Z (Z.of_nat (nkN p)))%Q.
(** the constructor of moNKlandscapesIncrEval (mo/src/problems/eval/moNKlandscapesIncrEval.h:55-63) *)
Definition inverse_links (p : nk) : res (list (list nat)) :=
  for_in (seq 0 (nkN p)) (fun i inv => for_in (seq 0 (S (nkK p))) (fun j inv =>
    let! l := entry (links p) i j in
    of_opt (obind (nth_error inv l) (fun r => upd inv l (r ++ [i])))) inv) (repeat [] (nkN p)).
(** its sigma (109-126): the mask, and the mask when the bit is flipped *)
Definition nk_sigma2 (p : nk) (x : list bool) (i bit : nat) : res (N * N) :=
  let! (sig, nonSig, n) := for_in (seq 0 (S (nkK p))) (fun j '(sig, nonSig, n) =>
    let! l := entry (links p) i j in
    let! b := gene x l in
    Ok (if b then N.lor sig n else sig, if l =? bit then n else nonSig, N.shiftl n 1)) (0%N, 0%N, 1%N) in
  Ok (sig, N.lxor sig nonSig).
(** the loop of operator() (81-86) *)
Definition nk_delta (p : nk) (inv : list (list nat)) (x : list bool) (bit : nat) (delta : Q) : res Q :=
  let! l := gene inv bit in
  for_in l (fun i delta =>
    let! (sig, nonSig) := nk_sigma2 p x i bit in
    let! a := entry (tables p) i (N.to_nat nonSig) in
    let! b := entry (tables p) i (N.to_nat sig) in Ok (delta + (a - b))%Q) delta.
(** operator() (74-89) *)
Definition nk_incr (p : nk) (inv : list (list nat)) (s : sol (list bool) Q) (bit : nat) : res Q :=
  let! delta := nk_delta p inv (geno s) bit 0%Q in
  let! f := fitness s in Ok (f + delta / inject_Z (Z.of_nat (nkN p)))%Q.
(** moNKlandscapesBitsIncrEval::operator() (moNKlandscapesBitsIncrEval.h:74-104) *)
Definition nk_bits_incr (p : nk) (inv : list (list nat)) (s : sol (list bool) Q) (bits : list nat) : res (Q * list bool) :=
  let! (delta, x) := for_in bits (fun b '(delta, x) =>
    let! d := nk_delta p inv x b delta in
    let! x' := bit_move b x in Ok (d, x')) (0%Q, geno s) in
  let! x' := bits_move bits x in
  let! f := fitness s in Ok ((f + delta / inject_Z (Z.of_nat (nkN p)))%Q, x').
(** choose (nkLandscapesEval.h:347-357): the first loop, giving the links and t; then the table is put
    back in reverse order *)
Fixpoint choose_loop (N i j todo : nat) (tab : list nat) (ds : list nat) : res (list nat * list nat * list nat * list nat) :=
  match todo with
  | 0 => Ok ([], [], tab, ds)
  | S m =>
      if N <=? j then UB else
      let! (t, ds1) := if j =? 0 then Ok (i, ds) else draw (N - j) ds in
      let! l := gene tab t in
      let! tab1 := of_opt (swap_at tab t (N - 1 - j)) in
      let! (ls, ts, tab2, ds2) := choose_loop N i (S j) m tab1 ds1 in
      Ok (l :: ls, t :: ts, tab2, ds2)
  end.
Fixpoint put_back (N j : nat) (ts : list nat) (tab : list nat) : res (list nat) :=
  match ts with
  | [] => Ok tab
  | t :: r => let! tab1 := put_back N (S j) r tab in of_opt (swap_at tab1 t (N - 1 - j))
  end.
Definition choose (N K i : nat) (tab : list nat) (ds : list nat) : res (list nat * list nat * list nat) :=
  let! (ls, ts, tab1, ds1) := choose_loop N i 0 (S K) tab ds in
  let! tab2 := put_back N 0 ts tab1 in Ok (ls, tab2, ds1).
(** randomTables (399-409) and consecutiveTables, consecutiveLinks (364-368, 415-422) *)
Fixpoint random_links (N K i todo : nat) (tab : list nat) (ds : list nat) : res (list (list nat) * list nat) :=
  match todo with
  | 0 => Ok ([], ds)
  | S m => let! (l, tab1, ds1) := choose N K i tab ds in let! (ls, ds2) := random_links N K (S i) m tab1 ds1 in Ok (l :: ls, ds2)
  end.
Definition random_tables (N K : nat) (ds : list nat) : res (list (list nat) * list nat) := random_links N K 0 N (seq 0 N) ds.
Definition consecutive_tables (N K : nat) : list (list nat) :=
  map (fun i => map (fun j => (i + j) mod N) (seq 0 (S K))) (seq 0 N).
