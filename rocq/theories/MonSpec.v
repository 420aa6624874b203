(** What a user expects to find in the files after a run. *)
From Coq Require Import Arith ZArith String Ascii Lia Bool List.
From Verif Require Import Lib Outcome MonModel.
Import ListNotations.

(** Items one after the other, with the delimiter between any two of them. *)
Fixpoint join (d : text) (l : list text) : text :=
  match l with
  | [] => []
  | [x] => x
  | x :: r => x ++ d ++ join d r
  end.
Definition line (d : text) (l : list text) : text := join d l ++ nl.

(** The file of an eoFileMonitor after the rows [rows]: what it held before when it is kept,
    the header once when asked for in a new file, then one line of values per call; a file to
    be overwritten only holds the last line. *)
Definition monitored (delim : text) (keep header overwrite : bool) (before : text) (rows : list (list param)) : text :=
  let old := if keep then before else [] in
  match rows with
  | [] => old
  | r :: _ =>
      if overwrite then line delim (map snd (last rows []))
      else old
           ++ (if header && negb keep then line delim (map fst r) else [])
           ++ concat (map (fun r => line delim (map snd r)) rows)
  end.

(** The table of vectors, a row per index. *)
Section Tables.
Context {D : Type} (show : D -> text) (d0 : D).
Definition row_of (vec : list (list D)) (k : nat) : text :=
  concat (map (fun v => show (nth k v d0) ++ T " ") vec) ++ nl.
(** One vector is preceded by the indices. *)
Definition snapshot_of (vec : list (list D)) : text :=
  match vec with
  | [v] => concat (map (fun k => decimal k ++ T " " ++ show (nth k v d0) ++ nl) (seq 0 (length v)))
  | v :: _ => concat (map (row_of vec) (seq 0 (length v)))
  | [] => []
  end.
End Tables.

(** A column of an aligned table. *)
Definition cell (w : nat) (fill : ascii) (s : text) : text := s ++ repeat fill (w - length s).
