(** Model of the archive indexes of moeo (moeo/src/scalarStuffs/archive): moeoQuickUnboundedArchiveIndex, moeoQuadTree, and of
    moeoIndexedArchive and moeoQuadTreeArchive.

    An individual of the archive is its objective vector.  Objective values are exact rationals.  [tol] is the tolerance of the
    objective vectors, [eps] the constant 1e-6 of moeoQuadTree.h:242-243.  The std::map of a node is the list of its non-null
    entries by increasing key.  A key is the list of its binary digits, the most significant (the first objective) first.  Reads
    of the uninitialised members of a node do not occur and are not modelled. *)
From Coq Require Import List Bool Arith QArith ZArith.
From Verif Require Import Lib Outcome BoundsModel ParetoModel.
Import ListNotations.
Local Open Scope Q_scope.

(** a deletion: the vector and its position in the archive (moeoArchiveIndex.h:31) *)
Definition deletion : Type := (list Q * Z)%type.

(** ** moeoQuickUnboundedArchiveIndex *)
Section Quick.
Variables (tol : Q) (dirs : list bool).
(** CompareByLast (77-93): the order of the set *)
Definition by_last (v w : list Q) : bool :=
  if nth 1 dirs true then qltb (nth 1 v 0) (nth 1 w 0) else qltb (nth 1 w 0) (nth 1 v 0).
Definition quick : Type := list (list Q * Z).
(** std::set: lower_bound, insert, erase *)
Fixpoint lower_bound (l : quick) (v : list Q) : nat :=
  match l with [] => 0%nat | e :: l => if by_last (fst e) v then S (lower_bound l v) else 0%nat end.
Definition set_insert (l : quick) (e : list Q * Z) : quick :=
  let i := lower_bound l (fst e) in
  match nth_error l i with
  | Some x => if by_last (fst e) (fst x) then firstn i l ++ e :: skipn i l else l
  | None => l ++ [e]
  end.
Definition set_erase (l : quick) (v : list Q) : quick :=
  let i := lower_bound l v in
  match nth_error l i with
  | Some x => if by_last v (fst x) then l else firstn i l ++ skipn (S i) l
  | None => l
  end.
(** the loop 216-219: the entries from [it] on that the vector dominates *)
Fixpoint dominated_run (v : list Q) (l : quick) : quick :=
  match l with [] => [] | e :: l => if pareto tol dirs (fst e) v then e :: dominated_run v l else [] end.
Definition index_size (l : quick) : Z := Z.of_nat (length l).
(** insert (172-237): the flag tells whether the index is modified *)
Definition quick_insert (flag : bool) (l : quick) (v : list Q) : bool * list deletion * quick :=
  let added := if flag then set_insert l (v, index_size l) else l in
  match l with
  | [] => (true, [], added)
  | _ =>
      let i := lower_bound l v in
      match nth_error l i with
      | None =>
          match nth_error l (i - 1) with
          | Some x => if pareto tol dirs v (fst x) then (false, [], l) else (true, [], added)
          | None => (false, [], l)
          end
      | Some x =>
          if same_vector tol v (fst x) || pareto tol dirs v (fst x) then (false, [], l)
          else
            let before := if (i =? 0)%nat then false else match nth_error l (i - 1) with Some y => pareto tol dirs v (fst y) | None => false end in
            if before then (false, [], l)
            else
              let del := dominated_run v (skipn i l) in
              let l' := fold_left (fun l e => set_erase l (fst e)) del l in
              (true, del, if flag then set_insert l' (v, index_size l') else l)
      end
  end.
(** update (135-141) *)
Definition quick_update (l : quick) (v : list Q) (new : Z) : quick := set_insert (set_erase l v) (v, new).
End Quick.

(** ** moeoQuadTree *)
Definition key := list bool.
Definition zero_key (k : key) : bool := forallb negb k.
Definition full_key (k : key) : bool := forallb (fun b => b) k.
Fixpoint key_eqb (a b : key) : bool :=
  match a, b with [], [] => true | x :: a, y :: b => Bool.eqb x y && key_eqb a b | _, _ => false end.
Fixpoint key_ltb (a b : key) : bool :=
  match a, b with x :: a, y :: b => if Bool.eqb x y then key_ltb a b else negb x | _, _ => false end.
Fixpoint key_and (a b : key) : key := match a, b with x :: a, y :: b => (x && y) :: key_and a b | _, _ => [] end.
Definition key_not (a : key) : key := map negb a.
(** bound - 1 *)
Definition last_key (n : nat) : key := match n with O => [] | S n => repeat true n ++ [false] end.

Inductive tree := Node (vec : list Q) (idx : Z) (subs : list (key * tree)).
Definition vec_of (t : tree) : list Q := match t with Node v _ _ => v end.
Definition idx_of (t : tree) : Z := match t with Node _ i _ => i end.
Definition subs_of (t : tree) : list (key * tree) := match t with Node _ _ m => m end.
Definition childless (t : tree) : tree := Node (vec_of t) (idx_of t) [].
Fixpoint get (k : key) (m : list (key * tree)) : option tree :=
  match m with [] => None | (k', t) :: m => if key_eqb k k' then Some t else get k m end.
Fixpoint replace_at (k : key) (t : tree) (m : list (key * tree)) : list (key * tree) :=
  match m with [] => [] | (k', t') :: m => if key_eqb k k' then (k', t) :: m else (k', t') :: replace_at k t m end.
Fixpoint insert_at (k : key) (t : tree) (m : list (key * tree)) : list (key * tree) :=
  match m with [] => [(k, t)] | (k', t') :: m' => if key_ltb k k' then (k, t) :: m else (k', t') :: insert_at k t m' end.
Definition put (k : key) (t : tree) (m : list (key * tree)) : list (key * tree) :=
  match get k m with Some _ => replace_at k t m | None => insert_at k t m end.
Definition with_child (t : tree) (k : key) (c : tree) : tree := Node (vec_of t) (idx_of t) (put k c (subs_of t)).
Fixpoint fold_res {A B} (f : A -> B -> res A) (l : list B) (a : A) : res A :=
  match l with [] => Ok a | x :: l => let! a := f a x in fold_res f l a end.

Section Quad.
Variables (tol eps : Q) (dirs : list bool).
(** k_succ (238-249) *)
Fixpoint digits (dirs : list bool) (v w : list Q) : key :=
  match dirs, v, w with
  | d :: dirs, x :: v, y :: w => (if d then Qle_bool (- eps) (x - y) else Qle_bool (x - y) eps) :: digits dirs v w
  | _, _, _ => []
  end.
Definition k_succ (v w : list Q) : key := if pareto tol dirs w v then repeat false (length dirs) else digits dirs v w.
(** reinsert (319-341); its two arguments are never the same node *)
Fixpoint reinsert (fuel : nat) (t1 t2 : tree) : res tree :=
  match fuel with
  | O => NoDraw
  | S fuel =>
      let! t1 := fold_res (fun t1 kc => reinsert fuel t1 (snd kc)) (subs_of t2) t1 in
      let succ := k_succ (vec_of t2) (vec_of t1) in
      match get succ (subs_of t1) with
      | Some c => let! c := reinsert fuel c (childless t2) in Ok (with_child t1 succ c)
      | None => Ok (with_child t1 succ (childless t2))
      end
  end.
(** reconsider (285-312) *)
Fixpoint reconsider (fuel : nat) (acc : tree * list deletion) (child : tree) : res (tree * list deletion) :=
  match fuel with
  | O => NoDraw
  | S fuel =>
      let! (root, del) := fold_res (fun acc kc => reconsider fuel acc (snd kc)) (subs_of child) acc in
      let succ := k_succ (vec_of child) (vec_of root) in
      if full_key succ then Ok (root, del ++ [(vec_of child, idx_of child)])
      else match get succ (subs_of root) with
           | Some c => let! c := reinsert fuel c (childless child) in Ok (with_child root succ c, del)
           | None => Ok (with_child root succ (childless child), del)
           end
  end.
(** replace (258-280): the new node takes the place of the old *)
Definition replace_node (fuel : nat) (new t : tree) (del : list deletion) : res (tree * list deletion) :=
  let! (new, del) := fold_res (fun acc kc => reconsider fuel acc (snd kc)) (subs_of t) (new, del) in
  Ok (new, del ++ [(vec_of t, idx_of t)]).
(** remove (350-371): what is left in the place of the node. The second loop stops before bound - 1. *)
Definition remove_node (fuel : nat) (t : tree) (del : list deletion) : res (option tree * list deletion) :=
  let inner := filter (fun kc => negb (zero_key (fst kc)) && negb (full_key (fst kc))) (subs_of t) in
  let del := del ++ [(vec_of t, idx_of t)] in
  match inner with
  | [] => Ok (None, del)
  | (_, c) :: rest =>
      let! c := fold_res (fun c kc => reinsert fuel c (snd kc)) (filter (fun kc => negb (key_eqb (fst kc) (last_key (length dirs)))) rest) c in
      Ok (Some c, del)
  end.
(** test1 (378-397) *)
Fixpoint test1 (v : list Q) (t : tree) : bool :=
  match t with
  | Node w _ m =>
      let succ := k_succ v w in
      if full_key succ then true
      else existsb (fun kc => key_eqb (key_and (key_not succ) (key_not (fst kc))) (key_not succ) && test1 v (snd kc)) m
  end.
(** the loop over the children that test2 runs on some of them *)
Fixpoint visit (step : tree -> list deletion -> res (option tree * list deletion)) (cond : key -> bool) (m : list (key * tree)) (del : list deletion)
  : res (list (key * tree) * list deletion) :=
  match m with
  | [] => Ok ([], del)
  | (k, c) :: m =>
      if cond k
      then let! (o, del) := step c del in
           let! (m, del) := visit step cond m del in
           Ok (match o with Some c => (k, c) :: m | None => m end, del)
      else let! (m, del) := visit step cond m del in Ok ((k, c) :: m, del)
  end.
(** test2 (404-424) *)
Fixpoint test2 (fuel : nat) (v : list Q) (t : tree) (del : list deletion) : res (option tree * list deletion) :=
  match fuel with
  | O => NoDraw
  | S fuel =>
      let succ := k_succ v (vec_of t) in
      if zero_key succ
      then let! (o, del) := remove_node fuel t del in
           match o with Some t => test2 fuel v t del | None => Ok (None, del) end
      else let! (m, del) := visit (test2 fuel v) (fun k => key_eqb (key_and succ k) succ) (subs_of t) del in
           Ok (Some (Node (vec_of t) (idx_of t) m), del)
  end.
(** insert_aux (176-231) *)
Fixpoint insert_aux (fuel : nat) (v : list Q) (i : Z) (t : tree) (del : list deletion) : res (bool * tree * list deletion) :=
  match fuel with
  | O => NoDraw
  | S fuel =>
      let succ := k_succ v (vec_of t) in
      if full_key succ then Ok (false, t, del)
      else if zero_key succ then let! (t, del) := replace_node fuel (Node v i []) t del in Ok (true, t, del)
      else if existsb (fun kc => key_ltb (fst kc) succ && key_eqb (key_and (key_not succ) (key_not (fst kc))) (key_not succ) && test1 v (snd kc)) (subs_of t)
      then Ok (false, t, del)
      else
        let! (m, del) := visit (test2 fuel v) (fun k => key_ltb succ k && key_eqb (key_and succ k) succ) (subs_of t) del in
        let t := Node (vec_of t) (idx_of t) m in
        match get succ m with
        | None => Ok (true, with_child t succ (Node v i []), del)
        | Some c => let! (ok, c, del) := insert_aux fuel v i c del in Ok (ok, with_child t succ c, del)
        end
  end.
(** insert (153-167) and operator() (128-135); the root, and current_size *)
Record quad := Quad { q_root : option tree; q_size : Z }.
Definition quad_insert (fuel : nat) (q : quad) (v : list Q) : res (bool * list deletion * quad) :=
  match q_root q with
  | None => Ok (true, [], Quad (Some (Node v 0 [])) (q_size q + 1))
  | Some t =>
      let! (ok, t, del) := insert_aux fuel v (q_size q - 1) t [] in
      Ok (ok, del, Quad (Some t) (if ok then q_size q + 1 - Z.of_nat (length del) else q_size q))
  end.
(** find_node (497-510), then update (142-147): None when no node is found *)
Fixpoint set_index (fuel : nat) (v : list Q) (new : Z) (t : tree) : option tree :=
  match fuel with
  | O => None
  | S fuel =>
      if same_vector tol (vec_of t) v then Some (Node (vec_of t) new (subs_of t))
      else let succ := k_succ (vec_of t) v in
           match get succ (subs_of t) with
           | Some c => match set_index fuel v new c with Some c => Some (with_child t succ c) | None => None end
           | None => None
           end
  end.
Definition quad_update (fuel : nat) (q : quad) (v : list Q) (new : Z) : quad :=
  match q_root q with
  | None => q
  | Some t => match set_index fuel v new t with Some t => Quad (Some t) (q_size q) | None => q end
  end.
End Quad.

(** ** moeoIndexedArchive *)
Section Indexed.
Variable X : Type.
Variable insert : X -> list Q -> res (bool * list deletion * X).
Variable update : X -> list Q -> Z -> X.
(** apply_modif (73-82): a write outside of the archive is undefined *)
Definition apply_deletion (s : list (list Q) * X) (d : deletion) : res (list (list Q) * X) :=
  let '(arch, x) := s in
  let! last := of_opt (nth_error arch (length arch - 1)) in
  if (snd d <? 0)%Z || (Z.of_nat (length arch) <=? snd d)%Z then UB
  else
    let arch := Lib.set arch (Z.to_nat (snd d)) last in
    let! obj := of_opt (nth_error arch (Z.to_nat (snd d))) in
    Ok (removelast arch, update x obj (snd d)).
(** operator() (39-51) *)
Definition indexed_add (s : list (list Q) * X) (v : list Q) : res (bool * (list (list Q) * X)) :=
  let '(arch, x) := s in
  let! (ok, del, x) := insert x v in
  if ok then let! (arch, x) := fold_res apply_deletion del (arch, x) in Ok (true, (arch ++ [v], x)) else Ok (false, (arch, x)).
(** operator() (57-64) *)
Definition indexed_add_pop (s : list (list Q) * X) (pop : list (list Q)) : res (bool * (list (list Q) * X)) :=
  fold_res (fun acc v => let! (ok, s) := indexed_add (snd acc) v in Ok (ok || fst acc, s)) pop (false, s).
End Indexed.

(** ** moeoQuadTreeArchive: operator() on an individual (79-81) *)
Definition quadtree_archive_add (arch : list (list Q)) (v : list Q) : bool * list (list Q) := (false, arch).
