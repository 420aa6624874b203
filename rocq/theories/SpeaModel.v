(** moeo/src/archive/moeoSPEA2Archive.h.  Fitness, diversity and distance are exact rationals. *)
From Coq Require Import List Bool Arith QArith.
From Verif Require Import Lib Outcome EvalModel BoundsModel.
Import ListNotations.
Close Scope Q_scope.
Open Scope nat_scope.

Section Spea.
Variable G : Type.
Variable fit : G -> Q.
Variable dv : G -> Q.
(** indiComparator (290-315), any comparator of individuals *)
Variable comp : G -> G -> bool.
Variable dist : G -> G -> Q.
Variable sort : forall T : Type, (T -> T -> bool) -> list T -> list T.

(** fitness + diversity *)
Definition sum (g : G) : Q := (fit g + dv g)%Q.
(** copy_pop (151-160): the indices of the population with their individuals, sorted with Cmp
    (335-341); fitness and diversity are read from the individual *)
Definition copies (pop : list G) : list (nat * G) :=
  sort _ (fun a b => qltb (sum (snd b)) (sum (snd a))) (combine (seq 0 (length pop)) pop).

(** the loop that replaces the worst members (182-189); [borne] is the size of the archive.  The
    element copy_pop[j] is read before j is compared with the size. *)
Fixpoint replace_worst (fuel borne : nat) (copy : list (nat * G)) (i j : nat) (mem : list G) : res (list G * nat) :=
  match fuel with
  | 0 => NoDraw
  | S fuel =>
      if i <? borne then
        let! m := of_opt (nth_error mem i) in
        let! c := of_opt (nth_error copy j) in
        if qltb (sum m) (sum (snd c)) && Qle_bool (fit m) (-1) && (j <? length copy) then
          let! b := of_opt (nth_error mem (length mem - 1)) in
          let! mem := of_opt (upd mem i b) in
          replace_worst fuel borne copy (S i) (S j) (removelast mem ++ [snd c])
        else Ok (mem, j)
      else Ok (mem, j)
  end.

(** the end of the good elements of the population (202-203) *)
Fixpoint good_run (l : list (nat * G)) : nat :=
  match l with c :: r => if qltb (-1) (fit (snd c)) then S (good_run r) else 0 | [] => 0 end.
(** the element at position [k] of the archive followed by the good elements, which start at
    [inf] in copy_pop (217-222) *)
Definition element (borne inf : nat) (copy : list (nat * G)) (mem : list G) (k : nat) : res G :=
  if k <? borne then of_opt (nth_error mem k)
  else let! c := of_opt (nth_error copy (k - borne + inf)) in Ok (snd c).
Definition push (rows : list (list (nat * Q))) (k : nat) (x : nat * Q) : res (list (list (nat * Q))) :=
  let! row := of_opt (nth_error rows k) in of_opt (upd rows k (row ++ [x])).
(** the matrix of distances (207-228) *)
Definition distances (borne p inf : nat) (copy : list (nat * G)) (mem : list G) : res (list (list (nat * Q))) :=
  for_in (seq 0 (borne + p - 1)) (fun k rows =>
    for_in (seq (k + 1) (borne + p - (k + 1))) (fun l rows =>
      let! x := element borne inf copy mem k in
      let! y := element borne inf copy mem l in
      let! rows := push rows k (l, dist x y) in
      push rows l (k, dist x y)) rows) (repeat [] (borne + p)).

(** a line of the matrix with the pair (-1, k) that is put at its end (236) apart *)
Definition row : Type := (list (nat * Q) * nat).
(** CmpVector (348-366); the pairs at the end, the numbers of the lines, are compared last.  Lines
    always have the same length here; the answers for others are immaterial. *)
Fixpoint closer (a b : list (nat * Q)) (ka kb : nat) : bool :=
  match a, b with
  | x :: a', y :: b' =>
      if qltb (snd x) (snd y) then true else if qltb (snd y) (snd x) then false else closer a' b' ka kb
  | [], [] => ka <? kb
  | [], _ => true
  | _, [] => false
  end.
Definition cmp_rows (a b : row) : bool := closer (fst a) (fst b) (snd a) (snd b).
(** each line sorted with CmpPair (369-378), then the lines (230-240) *)
Definition sorted_rows (rows : list (list (nat * Q))) : list row :=
  sort _ cmp_rows (map (fun r => (sort _ (fun a b => qltb (snd a) (snd b)) (snd r), fst r)) (combine (seq 0 (length rows)) rows)).
(** the search of an index in a line and its erasure (257-260); not finding it would be reading
    past the end *)
Fixpoint erase_index (t : nat) (l : list (nat * Q)) : res (list (nat * Q)) :=
  match l with
  | [] => UB
  | x :: l' => if fst x =? t then Ok l' else let! l' := erase_index t l' in Ok (x :: l')
  end.
Fixpoint erase_in_rows (t : nat) (rows : list row) : res (list row) :=
  match rows with
  | [] => Ok []
  | r :: rs => let! l := erase_index t (fst r) in let! rs := erase_in_rows t rs in Ok ((l, snd r) :: rs)
  end.
(** the search of the elements to delete (249-264): the lines left and notkeeped.  matrice_it is
    taken to stay the beginning of the matrix (formally erase invalidates it). *)
Fixpoint cut (p borne : nat) (rows : list row) (notkept : list nat) : res (list row * list nat) :=
  match p with
  | 0 => Ok (rows, notkept)
  | S p' =>
      match rows with
      | [] => UB
      | r :: rest =>
          let t := snd r in
          let notkept := if t <? borne then notkept ++ [t] else notkept in
          let! rest := erase_in_rows t rest in
          cut p' borne (if p' =? 0 then rest else sort _ cmp_rows rest) notkept
      end
  end.
(** the elements of the population to put in the archive (267-272) *)
Definition kept (borne : nat) (rows : list row) : res (list nat) :=
  for_in (seq 0 borne) (fun k acc =>
    let! r := of_opt (nth_error rows k) in Ok (if borne <=? snd r then acc ++ [snd r] else acc)) [].
(** the replacements (275-280) *)
Definition exchange (borne inf : nat) (copy : list (nat * G)) (kept notkept : list nat) (mem : list G) : res (list G) :=
  for_in (seq 0 (length kept)) (fun k mem =>
    let! t := of_opt (nth_error kept k) in
    let! c := of_opt (nth_error copy (t - borne + inf)) in
    let mem := mem ++ [snd c] in
    let! u := of_opt (nth_error notkept k) in
    let! b := of_opt (nth_error mem (length mem - 1)) in
    let! mem := of_opt (upd mem u b) in
    Ok (removelast mem)) mem.

(** operator() on a population (146-284): the archive and borne *)
Definition offer (maxSize : nat) (st : list G * nat) (pop : list G) : res (list G * nat) :=
  let '(mem, borne) := st in
  let copy := copies pop in
  if borne <? maxSize then
    let foo := Nat.min (length pop) (maxSize - borne) in
    for_in (seq 0 foo) (fun i st =>
      let! c := of_opt (nth_error copy i) in Ok (fst st ++ [snd c], S (snd st))) (mem, borne)
  else
    let! (mem, j) := replace_worst (S borne) borne copy 0 0 (sort _ comp mem) in
    let! c := of_opt (nth_error copy j) in
    if qltb (-1) (fit (snd c)) then
      let inf := j in
      let p := good_run (skipn j copy) in
      let! rows := distances borne p inf copy mem in
      let! (rows, notkept) := cut p borne (sorted_rows rows) [] in
      let! kept := kept borne rows in
      let! mem := exchange borne inf copy kept notkept mem in
      Ok (mem, borne)
    else Ok (mem, borne).
(** operator() on an individual (131-137) *)
Definition offer1 (maxSize : nat) (st : list G * nat) (g : G) : res (list G * nat) := offer maxSize st [g].
Fixpoint offers (maxSize : nat) (st : list G * nat) (pops : list (list G)) : res (list G * nat) :=
  match pops with [] => Ok st | pop :: pops' => let! st := offer maxSize st pop in offers maxSize st pops' end.
End Spea.
