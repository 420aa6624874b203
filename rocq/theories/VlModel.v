(** Model of the operators on variable-length chromosomes (eo/src/eoVariableLengthMutation.h,
    eo/src/eoVariableLengthCrossover.h), of the gene-wise mutations (eo/src/eoFlOrMonOp.h) and of
    the proportional combinations (eo/src/eoProportionalCombinedOp.h, eo/src/eoCombinedInit.h).

    A chromosome is the list of its genes (atoms); an operator returns the new chromosome(s)
    and the boolean it reports.  The fitness is outside: swapping two chromosomes with
    vector::swap, as the crossovers do, exchanges the genes and leaves the fitnesses alone. *)
From Coq Require Import List Arith Bool QArith.
From Verif Require Import Lib Outcome SelectModel.
Import ListNotations.
Local Open Scope nat_scope.

Section Genes.
Variable A : Type.

(** ** eo/src/eoVariableLengthMutation.h *)

(** vector::insert(begin()+pos, atom); inserting after the end is undefined *)
Definition insert_at (l : list A) (pos : nat) (a : A) : option (list A) :=
  if pos <=? length l then Some (firstn pos l ++ a :: skipn pos l) else None.
(** vector::erase(begin()+pos); erasing end() is undefined *)
Definition erase_at (l : list A) (pos : nat) : option (list A) :=
  if pos <? length l then Some (firstn pos l ++ skipn (S pos) l) else None.

(** eoVlAddMutation::operator() (eoVariableLengthMutation.h:66-75); [init] is the atom initializer *)
Definition vl_add (init : list nat -> res (A * list nat)) (nMax : nat) (l : list A) (ds : list nat)
  : res (list A * bool * list nat) :=
  if nMax <=? length l then Ok (l, false, ds)
  else
    let! (atom, ds1) := init ds in
    let! (pos, ds2) := draw (length l + 1) ds1 in
    let! l' := of_opt (insert_at l pos atom) in
    Ok (l', true, ds2).

(** eoUniformGeneChooser::operator() (eoVariableLengthMutation.h:101-104) *)
Definition uniform_chooser (l : list A) (ds : list nat) : res (nat * list nat) := draw (length l) ds.

(** eoVlDelMutation::operator() (eoVariableLengthMutation.h:137-144) *)
Definition vl_del (chooser : list A -> list nat -> res (nat * list nat)) (nMin : nat) (l : list A) (ds : list nat)
  : res (list A * bool * list nat) :=
  if length l <=? nMin then Ok (l, false, ds)
  else
    let! (pos, ds1) := chooser l ds in
    let! l' := of_opt (erase_at l pos) in
    Ok (l', true, ds1).

(** ** eo/src/eoVariableLengthCrossover.h *)

(** An eoAtomExchange (eoVariableLengthCrossover.h:45-52): [randomize] draws a new private state
    from the two sizes, [asks] answers for an index and a gene.  Simplification: the answer
    depends on the state, the index and the gene only (the documentation of the class,
    61-64, asks for it to be repeatable). *)
Record exchanger (X : Type) := Exchanger {
  randomize : nat -> nat -> X -> list nat -> res (X * list nat);
  asks : X -> nat -> A -> res bool }.
Arguments Exchanger {X}. Arguments randomize {X}. Arguments asks {X}.

(** eoUniformAtomExchange::randomize and operator() (eoVariableLengthCrossover.h:65-76): the mask
    has a fresh flip for each of the size1+size2 positions; the answer is mask[i] *)
Fixpoint flips (n : nat) (ds : list nat) : res (list bool * list nat) :=
  match n with
  | 0 => Ok ([], ds)
  | S m => let! (b, ds1) := draw_flip ds in let! (r, ds2) := flips m ds1 in Ok (b :: r, ds2)
  end.
Definition uniform_exchange : exchanger (list bool) :=
  Exchanger (fun n1 n2 _ ds => flips (n1 + n2) ds) (fun mask i _ => of_opt (nth_error mask i)).

(** one of the two gene loops of the exchange (eoVariableLengthCrossover.h:139-152): the genes for
    which the exchanger answers "yes", and the others, in order; [i] is the loop index *)
Fixpoint deal {X} (ex : exchanger X) (s : X) (i : nat) (l : list A) : res (list A * list A) :=
  match l with
  | [] => Ok ([], [])
  | a :: r =>
      let! b := asks ex s i a in
      let! (yes, no) := deal ex s (S i) r in
      Ok (if b then (a :: yes, no) else (yes, a :: no))
  end.
(** one of the two loops of the simulation (115-128): the same, counting only *)
Fixpoint tally {X} (ex : exchanger X) (s : X) (i : nat) (l : list A) : res (nat * nat) :=
  match l with
  | [] => Ok (0, 0)
  | a :: r =>
      let! b := asks ex s i a in
      let! (yes, no) := tally ex s (S i) r in
      Ok (if b then (S yes, no) else (yes, S no))
  end.
(** the condition of the do-while (130-131 and 255-256) *)
Definition bad_sizes (mn mx i1 i2 : nat) : bool := (i1 <? mn) || (i2 <? mn) || (mx <? i1) || (mx <? i2).

(** the do-while (110-132): [index] counts the trials; the loop ends when the sizes are right or
    when [index] reaches [limit] (10000 in the code).  Returns the state, the sizes and the index. *)
Fixpoint exchange_loop {X} (ex : exchanger X) (mn mx : nat) (todo index : nat) (s : X) (x1 x2 : list A) (ds : list nat)
  : res (X * nat * list nat) :=
  match todo with
  | 0 => Ok (s, index, ds)
  | S t =>
      let! (s', ds') := randomize ex (length x1) (length x2) s ds in
      let! (y1, n1) := tally ex s' 0 x1 in
      let! (y2, n2) := tally ex s' 0 x2 in
      if bad_sizes mn mx (y1 + n2) (n1 + y2) then exchange_loop ex mn mx t (S index) s' x1 x2 ds'
      else Ok (s', S index, ds')
  end.
(** eoVlAtomExchangeQuadOp::operator() (eoVariableLengthCrossover.h:104-157); the constant 10000 is
    the parameter [limit] *)
Definition vl_exchange {X} (ex : exchanger X) (limit mn mx : nat) (s : X) (x1 x2 : list A) (ds : list nat)
  : res (list A * list A * bool * X * list nat) :=
  let! (s', index, ds') := exchange_loop ex mn mx limit 0 s x1 x2 ds in
  if limit <=? index then Ok (x1, x2, false, s', ds')
  else
    let! (y1, n1) := deal ex s' 0 x1 in
    let! (y2, n2) := deal ex s' 0 x2 in
    Ok (y1 ++ n2, n1 ++ y2, true, s', ds').

(** eoInnerExchangeQuadOp::operator() (eoVariableLengthCrossover.h:187-198): the atom crossover on
    the positions both parents have, each with probability rate *)
Definition atom_quad := A -> A -> list nat -> res (A * A * bool * list nat).
Fixpoint inner_exchange (op : atom_quad) (x1 x2 : list A) (ds : list nat)
  : res (list A * list A * bool * list nat) :=
  match x1, x2 with
  | a :: r1, b :: r2 =>
      let! (f, ds1) := draw_flip ds in
      let! (a', b', here, ds2) := (if f then op a b ds1 else Ok (a, b, false, ds1)) in
      let! (r1', r2', later, ds3) := inner_exchange op r1 r2 ds2 in
      Ok (a' :: r1', b' :: r2', here || later, ds3)
  | _, _ => Ok (x1, x2, false, ds)
  end.

(** a gene loop of eoVlUniformQuadOp (eoVariableLengthCrossover.h:239-253): the gene goes to tmp1
    on a success of the flip, to tmp2 otherwise; [tmp1] and [tmp2] are only appended to *)
Fixpoint scatter (l : list A) (tmp1 tmp2 : list A) (ds : list nat) : res (list A * list A * list nat) :=
  match l with
  | [] => Ok (tmp1, tmp2, ds)
  | a :: r =>
      let! (f, ds1) := draw_flip ds in
      if f then scatter r (tmp1 ++ [a]) tmp2 ds1 else scatter r tmp1 (tmp2 ++ [a]) ds1
  end.
(** the do-while of eoVlUniformQuadOp (238-257): the temporaries are not cleared between trials *)
Fixpoint vl_uniform_loop (mn mx todo index : nat) (x1 x2 tmp1 tmp2 : list A) (ds : list nat)
  : res (list A * list A * nat * list nat) :=
  match todo with
  | 0 => Ok (tmp1, tmp2, index, ds)
  | S t =>
      let! (t1, t2, ds1) := scatter x1 tmp1 tmp2 ds in
      let! (t1, t2, ds2) := scatter x2 t1 t2 ds1 in
      if bad_sizes mn mx (length t1) (length t2) then vl_uniform_loop mn mx t (S index) x1 x2 t1 t2 ds2
      else Ok (t1, t2, S index, ds2)
  end.
(** eoVlUniformQuadOp::operator() (eoVariableLengthCrossover.h:233-268) *)
Definition vl_uniform_quad (limit mn mx : nat) (x1 x2 : list A) (ds : list nat) : res (list A * list A * bool * list nat) :=
  let! (t1, t2, index, ds') := vl_uniform_loop mn mx limit 0 x1 x2 [] [] ds in
  if limit <=? index then Ok (x1, x2, false, ds') else Ok (t1, t2, true, ds').

(** a gene loop of eoVlUniformBinOp (eoVariableLengthCrossover.h:302-322): a gene is appended when
    the flip is [keep]; a kept gene clears [other], a dropped gene clears [own] *)
Fixpoint gather (keep : bool) (l : list A) (tmp : list A) (own other : bool) (ds : list nat)
  : res (list A * bool * bool * list nat) :=
  match l with
  | [] => Ok (tmp, own, other, ds)
  | a :: r =>
      let! (f, ds1) := draw_flip ds in
      if Bool.eqb f keep then gather keep r (tmp ++ [a]) own false ds1 else gather keep r tmp false other ds1
  end.
(** the do-while (301-325): neither the temporary nor the two flags are reset between trials *)
Fixpoint vl_bin_loop (mn mx todo index : nat) (x1 x2 tmp : list A) (isOne isTwo : bool) (ds : list nat)
  : res (list A * bool * bool * nat * list nat) :=
  match todo with
  | 0 => Ok (tmp, isOne, isTwo, index, ds)
  | S t =>
      let! (tmp, isOne, isTwo, ds1) := gather true x1 tmp isOne isTwo ds in
      let! (tmp, isTwo, isOne, ds2) := gather false x2 tmp isTwo isOne ds1 in
      if (length tmp <? mn) || (mx <? length tmp) then vl_bin_loop mn mx t (S index) x1 x2 tmp isOne isTwo ds2
      else Ok (tmp, isOne, isTwo, S index, ds2)
  end.
(** eoVlUniformBinOp::operator() (eoVariableLengthCrossover.h:295-344) *)
Definition vl_uniform_bin (limit mn mx : nat) (x1 x2 : list A) (ds : list nat) : res (list A * bool * list nat) :=
  let! (tmp, isOne, isTwo, index, ds') := vl_bin_loop mn mx limit 0 x1 x2 [] true true ds in
  if limit <=? index then Ok (x1, false, ds')
  else if isTwo then Ok (tmp, false, ds')
  else if isOne then Ok (tmp, false, ds')
  else Ok (tmp, true, ds').

(** ** eo/src/eoFlOrMonOp.h *)
Definition atom_mon := A -> list nat -> res (A * bool * list nat).

(** eoFlOrAllMutation::operator() (eoFlOrMonOp.h:60-69) *)
Fixpoint all_mutation (op : atom_mon) (l : list A) (ds : list nat) : res (list A * bool * list nat) :=
  match l with
  | [] => Ok ([], false, ds)
  | a :: r =>
      let! (f, ds1) := draw_flip ds in
      let! (a', here, ds2) := (if f then op a ds1 else Ok (a, false, ds1)) in
      let! (r', later, ds3) := all_mutation op r ds2 in
      Ok (a' :: r', here || later, ds3)
  end.

(** eoFlOrKMutation::operator() (eoFlOrMonOp.h:98-108); duplicates are possible *)
Fixpoint k_mutation (op : atom_mon) (nb : nat) (l : list A) (ds : list nat) : res (list A * bool * list nat) :=
  match nb with
  | 0 => Ok (l, false, ds)
  | S k =>
      let! (i, ds1) := draw (length l) ds in
      let! a := of_opt (nth_error l i) in
      let! (a', here, ds2) := op a ds1 in
      let! l' := of_opt (upd l i a') in
      let! (l'', later, ds3) := k_mutation op k l' ds2 in
      Ok (l'', here || later, ds3)
  end.
End Genes.
Arguments Exchanger {A X}. Arguments randomize {A X}. Arguments asks {A X}.

(** ** eo/src/eoProportionalCombinedOp.h and eo/src/eoCombinedInit.h *)
Section Combined.
Variables (T R : Type).
(** a combination: the operators and their rates; the operator is any function of the argument(s)
    [T] (one chromosome, a pair of them, ...) to its outcome *)
Definition combination := (list (T -> R) * list Q)%type.
(** the constructor and add (eoProportionalCombinedOp.h:76-90, 181-210; eoCombinedInit.h:40-64) *)
Definition combine_first (op : T -> R) (rate : Q) : combination := ([op], [rate]).
Definition combine_add (c : combination) (op : T -> R) (rate : Q) : combination := (fst c ++ [op], snd c ++ [rate]).
(** operator() (eoProportionalCombinedOp.h:105-109 and 222-226; eoCombinedInit.h:80-85): [u] is the
    uniform draw of eoRng::roulette_wheel *)
Definition combine_apply (c : combination) (u : Q) (x : T) : res R :=
  let! what := rng_roulette (snd c) 0 u in
  let! op := of_opt (nth_error (fst c) what) in
  Ok (op x).
End Combined.
Arguments combine_first {T R}. Arguments combine_add {T R}. Arguments combine_apply {T R}.
