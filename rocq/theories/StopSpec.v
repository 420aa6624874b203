(** What the stopping criteria and the checkpoints promise. *)
From Coq Require Import List Arith Bool.
From Verif Require Import StopModel.
From Coq Require Import List.
Import ListNotations.
Open Scope nat_scope.

(** a criterion shown [sols] one after the other answers [rule k] at the k-th (from 0) *)
Definition answers_by (bs : list bool) (n : nat) (rule : nat -> bool -> Prop) : Prop :=
  length bs = n /\ forall k b, nth_error bs k = Some b -> rule k b.

(** all the parts of one kind, in order, once each *)
Definition all_parts {A} (a : act) (p : part) (n : nat) (arg : option A) (evs : list (event A)) : Prop :=
  length evs = n /\ forall i e, nth_error evs i = Some e -> e = Ev a p i arg.

(** events that come one group after another *)
Inductive in_order {A} : list (list A -> Prop) -> list A -> Prop :=
  | order_nil : in_order [] []
  | order_cons (P : list A -> Prop) ps l r : P l -> in_order ps r -> in_order (P :: ps) (l ++ r).

(** one iteration of a checkpoint of mo: the statistics in [due] on the current solution, then every
    updater, every mo updater, every monitor, and every continuator on the current solution *)
Definition due_stats {A} (n : nat) (due : nat -> Prop) (arg : A) (evs : list (event A)) : Prop :=
  (forall e, In e evs <-> exists i, i < n /\ due i /\ e = Ev Call Stat i (Some arg)) /\ NoDup evs /\
  forall a b i j x y, a < b -> nth_error evs a = Some (Ev Call Stat i x) -> nth_error evs b = Some (Ev Call Stat j y) -> i < j.
Definition mo_iteration {T} (p : mo_parts) (due : nat -> Prop) (s : T) : list (event T) -> Prop :=
  in_order [due_stats (m_stats p) due s; all_parts Call Upd (m_upds p) None; all_parts Call MoUpd (m_moupds p) None;
            all_parts Call Mon (m_mons p) None; all_parts Call Cont (m_conts p) (Some s)].
Definition mo_start {T} (p : mo_parts) (s : T) : list (event T) -> Prop :=
  in_order [all_parts Init Stat (m_stats p) (Some s); all_parts Init MoUpd (m_moupds p) None;
            all_parts Call Mon (m_mons p) None; all_parts Init Cont (m_conts p) (Some s)].
Definition mo_end {T} (p : mo_parts) (s : T) : list (event T) -> Prop :=
  in_order [all_parts Last Stat (m_stats p) (Some s); all_parts Last Upd (m_upds p) None;
            all_parts Last MoUpd (m_moupds p) None; all_parts Last Mon (m_mons p) None].

(** the log before a continuator is asked determines its answer; [all_agree]: all the continuators
    asked in [it], after [before], answered to go on *)
Definition all_agree {A} (ans : nat -> A -> list (event A) -> bool) (before it : list (event A)) : Prop :=
  forall l1 l2 i x, it = l1 ++ Ev Call Cont i (Some x) :: l2 -> ans i x (before ++ l1) = true.

(** the whole life of a checkpoint of mo when the search shows it [sols]: init, one iteration for each
    of the first [n] solutions, then the last call on the last solution shown; it goes on as long as all
    the continuators agree. [due k i]: statistic [i] is due at iteration [k] (from 0) *)
Definition mo_life {T} (p : mo_parts) (ans : nat -> T -> list (event T) -> bool) (due : nat -> nat -> Prop)
    (s0 : T) (sols : list T) (n : nat) (log : list (event T)) : Prop :=
  n <= length sols /\
  exists start its fin, log = start ++ concat its ++ fin /\ mo_start p s0 start /\ mo_end p (last (firstn n sols) s0) fin /\
    length its = n /\
    (forall k s it, nth_error sols k = Some s -> nth_error its k = Some it -> mo_iteration p (due k) s it) /\
    (forall k it, nth_error its k = Some it -> S k < n -> all_agree ans (start ++ concat (firstn k its)) it) /\
    (n < length sols -> exists k it, n = S k /\ nth_error its k = Some it /\ ~ all_agree ans (start ++ concat (firstn k its)) it).

(** what the interval of a checkpoint is documented to mean: every statistic every [interval] iterations *)
Definition every (interval : nat) (k i : nat) : Prop := exists q, S k = q * interval.

(** the eo checkpoint *)
Definition eo_generation {I} (sort : list I -> list I) (p : eo_parts) (pop : list I) : list (event (list I)) -> Prop :=
  in_order [all_parts Call SortedStat (o_sorted p) (Some (sort pop)); all_parts Call Stat (o_stats p) (Some pop);
            all_parts Call Upd (o_upds p) None; all_parts Call Mon (o_mons p) None;
            all_parts Call Cont (o_conts p) (Some pop)].
Definition eo_end {I} (sort : list I -> list I) (p : eo_parts) (pop : list I) : list (event (list I)) -> Prop :=
  in_order [all_parts Last SortedStat (o_sorted p) (Some (sort pop)); all_parts Last Stat (o_stats p) (Some pop);
            all_parts Last Upd (o_upds p) None; all_parts Last Mon (o_mons p) None].

(** the life of an eo checkpoint shown [pops]: one generation each, as long as all the continuators agree;
    the last calls are made once, at the generation where one of them does not *)
Definition eo_life {I} (sort : list I -> list I) (p : eo_parts) (ans : nat -> list I -> list (event (list I)) -> bool)
    (pops : list (list I)) (n : nat) (stopped : bool) (log : list (event (list I))) : Prop :=
  n <= length pops /\ (stopped = false -> n = length pops) /\
  exists gens fin, log = concat gens ++ fin /\ length gens = n /\
    (forall k pop g, nth_error pops k = Some pop -> nth_error gens k = Some g -> eo_generation sort p pop g) /\
    (forall k g, nth_error gens k = Some g -> (all_agree ans (concat (firstn k gens)) g <-> stopped = false \/ S k < n)) /\
    (stopped = false -> fin = []) /\
    (stopped = true -> exists k pop, n = S k /\ nth_error pops k = Some pop /\ eo_end sort p pop fin).

(** the multiples of [d] in [lo, hi[, in increasing order, each once *)
Definition multiples_in (d lo hi : nat) (l : list nat) : Prop :=
  (forall a b x y, a < b -> nth_error l a = Some x -> nth_error l b = Some y -> x < y) /\
  forall c, In c l <-> lo <= c < hi /\ exists q, c = q * d.

(** the best solution shown so far, the first one in case of ties *)
Definition first_best {T F} (value : T -> F) (lt : F -> F -> bool) (shown : list T) (best : T) : Prop :=
  exists k, nth_error shown k = Some best /\
    forall j s, nth_error shown j = Some s -> lt (value best) (value s) = false /\ (j < k -> lt (value s) (value best) = true).
