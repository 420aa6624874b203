(** Specification for the archive indexes. *)
From Coq Require Import List QArith ZArith.
From Verif Require Import Outcome ParetoSpec QdModel.
Import ListNotations.
(** the vectors in a tree, in an index *)
Fixpoint content (t : tree) : list (list Q) := match t with Node v _ m => v :: flat_map (fun kc => content (snd kc)) m end.
Definition contents (m : list (key * tree)) : list (list Q) := flat_map (fun kc => content (snd kc)) m.
Definition members (q : quad) : list (list Q) := match q_root q with None => [] | Some t => content t end.
Definition vectors (l : quick) : list (list Q) := map fst l.
Definition nothing : quad := Quad None 0.
Definition dominated_by (dirs : list bool) (a b : list Q) : Prop := dominates dirs b a.
(** the vectors of [vs] have one value per objective *)
Definition sized (dirs : list bool) (vs : list (list Q)) : Prop := forall v, In v vs -> length v = length dirs.
(** the vectors are offered one after the other: the answers, and the last state *)
Fixpoint offer {X} (insert : X -> list Q -> res (bool * list deletion * X)) (x : X) (vs : list (list Q)) : res (list bool * X) :=
  match vs with
  | [] => Ok ([], x)
  | v :: vs => let! (b, _, x) := insert x v in let! (bs, x) := offer insert x vs in Ok (b :: bs, x)
  end.
(** the answer to one vector is right for the members at that time: it is rejected exactly when a member is as good, and nothing
    changes then; otherwise it becomes a member, and every other member was one and is not worse than it everywhere *)
Definition right_answer (dirs : list bool) (before : list (list Q)) (v : list Q) (b : bool) (del : list deletion) (after : list (list Q)) : Prop :=
  (b = true <-> forall u, In u before -> ~ weakly_dominates dirs u v) /\
  (b = false -> del = [] /\ forall u, In u after <-> In u before) /\
  (b = true -> In v after /\ (forall u, In u after -> u = v \/ (In u before /\ ~ weakly_dominates dirs v u)) /\
    forall d, In d del -> In (fst d) before /\ dominates dirs v (fst d)).
(** nothing else has left: what was a member and is not dominated still is one, and what has left is reported *)
Definition complete_answer (dirs : list bool) (before : list (list Q)) (v : list Q) (b : bool) (del : list deletion) (after : list (list Q)) : Prop :=
  b = true -> forall u, In u before ->
    (dominates dirs v u -> In u (map fst del) /\ ~ In u after) /\ (~ dominates dirs v u -> In u after /\ ~ In u (map fst del)).
