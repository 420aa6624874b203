(** Model of the tabu lists of mo (mo/src/memory). *)
From Coq Require Import List Arith Bool.
From Verif Require Import Outcome Lib.
Import ListNotations.
Open Scope nat_scope.

(** what a search calls on a tabu list: add, update, and init or clearMemory. check does not change
    the list. *)
Inductive call (E : Type) := CAdd (x : E) | CUpdate | CClear.
Arguments CAdd {E}.
Arguments CUpdate {E}.
Arguments CClear {E}.

(** ** moIndexedVectorTabuList and moRndIndexedVectorTabuList *)
(** how the tenure is chosen: the two constructors of moIndexedVectorTabuList
    (moIndexedVectorTabuList.h:58-73) and that of moRndIndexedVectorTabuList
    (moRndIndexedVectorTabuList.h:62-63) *)
Inductive tenure_kind := Fixed (howlong : nat) | Robust (howlongMin howlongMax : nat) | Rnd (howlong howlongRnd : nat).
(** the tenure chosen by add (moIndexedVectorTabuList.h:91-95, moRndIndexedVectorTabuList.h:72). The
    32-bit difference howlongMax - howlongMin wraps round when howlongMax < howlongMin: a huge random
    tenure, modelled as undefined. rng.uniform(howlongRnd) is a real in [0, howlongRnd); only the
    integer part of the sum is kept. *)
Definition tenure (k : tenure_kind) (ds : list nat) : res (nat * list nat) :=
  match k with
  | Fixed h => Ok (h, ds)
  | Robust mn mx => if mx <? mn then UB else let! (d, ds') := draw (mx - mn) ds in Ok (mn + (if mx - mn =? 0 then 0 else d), ds')
  | Rnd h r => let! (d, ds') := draw r ds in Ok (h + (if r =? 0 then 0 else d), ds')
  end.
(** constructor (58-60, resize fills with zeros), add (90-98), update (105-109), clearMemory (124-127).
    An index beyond maxSize is ignored by add. *)
Definition ti_new (maxSize : nat) : list nat := repeat 0 maxSize.
Definition ti_add (k : tenure_kind) (maxSize i : nat) (t : list nat) (ds : list nat) : res (list nat * list nat) :=
  if i <? maxSize then
    let! (h, ds') := tenure k ds in
    let! t' := of_opt (upd t i h) in Ok (t', ds')
  else Ok (t, ds).
Definition ti_update (t : list nat) : list nat := map pred t.
Definition ti_clear (t : list nat) : list nat := map (fun _ => 0) t.
(** check (117-119): the index is not compared with maxSize *)
Definition ti_check (t : list nat) (i : nat) : res bool := let! h := of_opt (nth_error t i) in Ok (0 <? h).
Definition ti_call (k : tenure_kind) (maxSize : nat) (c : call nat) (t : list nat) (ds : list nat) : res (list nat * list nat) :=
  match c with
  | CAdd i => ti_add k maxSize i t ds
  | CUpdate => Ok (ti_update t, ds)
  | CClear => Ok (ti_clear t, ds)
  end.
Fixpoint ti_run (k : tenure_kind) (maxSize : nat) (cs : list (call nat)) (t : list nat) (ds : list nat) : res (list nat * list nat) :=
  match cs with
  | [] => Ok (t, ds)
  | c :: r => let! (t', ds') := ti_call k maxSize c t ds in ti_run k maxSize r t' ds'
  end.

(** ** moNeighborVectorTabuList and moSolVectorTabuList *)
(** [E]: neighbors (compared with equals) or solutions (compared with ==) *)
Section Ring.
Variables (E : Type) (equals : E -> E -> bool) (maxSize howlong : nat).
(** tabuList and index; [None]: the constructor of moSolVectorTabuList does not initialise index
    (moSolVectorTabuList.h:51-54), that of moNeighborVectorTabuList sets it to 0
    (moNeighborVectorTabuList.h:54). index is a 64-bit counter, unbounded here. *)
Record ring := Ring { entries : list (E * nat); index : option nat }.
Definition neighbor_list_new : ring := Ring [] (Some 0).
Definition sol_list_new : ring := Ring [] None.
(** add (moNeighborVectorTabuList.h:73-86, moSolVectorTabuList.h:71-84) *)
Definition ring_add (x : E) (t : ring) : res ring :=
  if length (entries t) <? maxSize then Ok (Ring (entries t ++ [(x, howlong)]) (index t))
  else
    match index t with
    | None => UB
    | Some k => if maxSize =? 0 then UB else
        let! l := of_opt (upd (entries t) (k mod maxSize) (x, howlong)) in Ok (Ring l (Some (S k)))
    end.
(** update (93-98, 91-96) *)
Definition ring_update (t : ring) : ring :=
  if 0 <? howlong then Ring (map (fun e => (fst e, pred (snd e))) (entries t)) (index t) else t.
(** clearMemory (117-120, 117-120) *)
Definition ring_clear (t : ring) : ring := Ring [] (Some 0).
(** check (106-112, 105-113); for solutions [x] is the solution the neighbor leads to *)
Definition ring_check (t : ring) (x : E) : bool :=
  existsb (fun e => ((0 <? howlong) && (0 <? snd e) && equals (fst e) x) || ((howlong =? 0) && equals (fst e) x)) (entries t).
Definition ring_call (c : call E) (t : ring) : res ring :=
  match c with
  | CAdd x => ring_add x t
  | CUpdate => Ok (ring_update t)
  | CClear => Ok (ring_clear t)
  end.
Fixpoint ring_run (cs : list (call E)) (t : ring) : res ring :=
  match cs with
  | [] => Ok t
  | c :: r => let! t' := ring_call c t in ring_run r t'
  end.
End Ring.
