(** What the text format promises, without the parser. *)
From Coq Require Import List Arith Ascii Bool.
Import ListNotations.
From Verif Require Import JsonModel.

(** A string whose quotes are escaped: read from the left, a backslash protects the next
    character (there must be one), and no unprotected quote occurs. *)
Fixpoint well_escaped (s : text) : bool :=
  match s with
  | [] => true
  | c :: s' =>
      if Ascii.eqb c back_ch then
        match s' with [] => false | _ :: s'' => well_escaped s'' end
      else negb (Ascii.eqb c quote_ch) && well_escaped s'
  end.

(** The entries of a map: keys in strictly increasing order. *)
Fixpoint sorted_keys {A} (kvs : list (text * A)) : Prop :=
  match kvs with
  | [] => True
  | (k, _) :: rest =>
      match rest with
      | [] => True
      | (k', _) :: _ => text_ltb k k' = true /\ sorted_keys rest
      end
  end.

Definition text_is (a b : text) : bool := if list_eq_dec ascii_dec a b then true else false.

(** An entry of the map is the last one written for its key. *)
Fixpoint last_for (k : text) (kvs : list (text * json)) (dflt : option json) : option json :=
  match kvs with
  | [] => dflt
  | (k', v) :: rest => last_for k rest (if text_is k' k then Some v else dflt)
  end.

Fixpoint lookup (k : text) (m : list (text * json)) : option json :=
  match m with
  | [] => None
  | (k', v) :: rest => if text_is k' k then Some v else lookup k rest
  end.

(** A value made of strings, arrays and objects only, every string and key well escaped and
    every object a map. *)
Fixpoint printable (v : json) : Prop :=
  match v with
  | JStr s => well_escaped s = true
  | JArr vs => fold_right (fun w P => printable w /\ P) True vs
  | JObj kvs =>
      sorted_keys kvs /\
      fold_right (fun e P => well_escaped (fst e) = true /\ printable (snd e) /\ P) True kvs
  | JNull => False
  end.

Definition blanks (b : text) : Prop := Forall (fun c => is_blank c = true) b.

(** Any layout of a value: any blanks (spaces, commas, newlines) between the parts, any
    character in place of the colon, entries of an object in any order, the last entry with a
    given key counts. *)
Inductive laid : json -> text -> Prop :=
| laid_str s : well_escaped s = true -> laid (JStr s) (quote_ch :: s ++ [quote_ch])
| laid_arr vs b t :
    blanks b -> laid_items vs t -> laid (JArr vs) ("["%char :: b ++ t ++ ["]"%char])
| laid_obj kvs b t :
    blanks b -> laid_members kvs t -> laid (JObj (map_of kvs)) ("{"%char :: b ++ t ++ ["}"%char])
with laid_items : list json -> text -> Prop :=
| laid_nil : laid_items [] []
| laid_cons v t b vs t' :
    laid v t -> blanks b -> laid_items vs t' -> laid_items (v :: vs) (t ++ b ++ t')
with laid_members : list (text * json) -> text -> Prop :=
| laid_mnil : laid_members [] []
| laid_mcons k colon b0 v t b kvs t' :
    well_escaped k = true -> blanks b0 -> laid v t -> blanks b -> laid_members kvs t' ->
    laid_members ((k, v) :: kvs)
      ((quote_ch :: k ++ [quote_ch]) ++ colon :: b0 ++ t ++ b ++ t').

Scheme laid_ind' := Induction for laid Sort Prop
  with laid_items_ind' := Induction for laid_items Sort Prop
  with laid_members_ind' := Induction for laid_members Sort Prop.
Combined Scheme laid_all_ind from laid_ind', laid_items_ind', laid_members_ind'.
