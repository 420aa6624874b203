(** Specifications for breeding (C22, C62, C63): what is expected of user operators. *)
From Coq Require Import List Bool QArith.
From Verif Require Import Outcome BreedModel.
Import ListNotations.

(** An operator is honest when, answering "no change", it has left its argument alone.
    (Whatever it does when answering "change" is covered by the invalidation.) *)
Section Honest.
Context {G F W : Type}.
Notation I := (indiv G F).
Definition honest_mon (f : mon_op (G:=G) (F:=F) (W:=W)) : Prop :=
  forall x w x' w', f x w = Ok (x', false, w') -> x' = x.
Definition honest_bin (f : bin_op (G:=G) (F:=F) (W:=W)) : Prop :=
  forall x y w x' w', f x y w = Ok (x', false, w') -> x' = x.
Definition honest_quad (f : quad_op (G:=G) (F:=F) (W:=W)) : Prop :=
  forall x y w x' y' w', f x y w = Ok (x', y', false, w') -> x' = x /\ y' = y.
Fixpoint honest (op : genop (G:=G) (F:=F) (W:=W)) : Prop :=
  match op with
  | MonGen f => honest_mon f
  | BinGen f => honest_bin f
  | SelBinGen f _ => honest_bin f
  | QuadGen f => honest_quad f
  | Sequential l => (fix all (l : list (Q * genop)) := match l with [] => True | (_, o) :: r => honest o /\ all r end) l
  | Proportional l => (fix all (l : list (Q * genop)) := match l with [] => True | (_, o) :: r => honest o /\ all r end) l
  end.

(** the selections only deliver individuals of [src] *)
Definition selects_from (src : list I) (select : W -> res (I * W)) : Prop :=
  forall w x w', select w = Ok (x, w') -> In x src.

(** [x] is fresh (unevaluated), or an untouched copy of a member of [src] *)
Definition fresh_or_copy (src : list I) (x : I) : Prop := fit x = None \/ In x src.

(** every component answers (no exception, no undefined behaviour, no missing draw),
    and the roulette answers an index of the list it was given *)
Fixpoint total_op (op : genop (G:=G) (F:=F) (W:=W)) : Prop :=
  match op with
  | MonGen f => forall x w, exists r, f x w = Ok r
  | BinGen f => forall x y w, exists r, f x y w = Ok r
  | SelBinGen f sel => (forall x y w, exists r, f x y w = Ok r) /\ (forall src w, exists r, sel src w = Ok r)
  | QuadGen f => forall x y w, exists r, f x y w = Ok r
  | Sequential l => (fix all (l : list (Q * genop)) := match l with [] => True | (_, o) :: r => total_op o /\ all r end) l
  | Proportional l => l <> [] /\
      (fix all (l : list (Q * genop)) := match l with [] => True | (_, o) :: r => total_op o /\ all r end) l
  end.
(** one application always produces at least one individual *)
Fixpoint productive (flip : Q -> W -> res (bool * W)) (op : genop (G:=G) (F:=F) (W:=W)) : Prop :=
  match op with
  | MonGen _ | BinGen _ | SelBinGen _ _ | QuadGen _ => True
  | Sequential l =>
      (fix some (l : list (Q * genop)) := match l with
         | [] => False
         | (rate, o) :: r => ((forall w, exists w', flip rate w = Ok (true, w')) /\ productive flip o) \/ some r end) l
  | Proportional l => (fix all (l : list (Q * genop)) := match l with [] => True | (_, o) :: r => productive flip o /\ all r end) l
  end.
End Honest.

(** what one application of an operator makes of its argument(s), fitness included:
    the operator's result, with its fitness dropped if the operator said "changed" *)
Section Results.
Context {G F W : Type}.
Notation I := (indiv G F).
Definition mon_result (f : mon_op (G:=G) (F:=F) (W:=W)) (x y : I) : Prop :=
  exists w x' ch w', f x w = Ok (x', ch, w') /\ y = (if (ch : bool) then Ind (geno x') None else x').
Definition bin_result (f : bin_op (G:=G) (F:=F) (W:=W)) (mate : I -> Prop) (x y : I) : Prop :=
  exists m w x' ch w', mate m /\ f x m w = Ok (x', ch, w') /\ y = (if (ch : bool) then Ind (geno x') None else x').
Definition quad_result (f : quad_op (G:=G) (F:=F) (W:=W)) (x1 x2 y1 y2 : I) : Prop :=
  exists w x1' x2' ch w', f x1 x2 w = Ok (x1', x2', ch, w') /\
    y1 = (if (ch : bool) then Ind (geno x1') None else x1') /\ y2 = (if (ch : bool) then Ind (geno x2') None else x2').

(** a wrapped user operator, not a container *)
Definition basic (op : genop (G:=G) (F:=F) (W:=W)) : Prop :=
  match op with Sequential _ | Proportional _ => False | _ => True end.
(** the offspring a wrapped operator makes out of individuals of [src] *)
Definition produced (op : genop (G:=G) (F:=F) (W:=W)) (src : list I) (y : I) : Prop :=
  match op with
  | MonGen f => exists x, In x src /\ mon_result f x y
  | BinGen f => exists x, In x src /\ bin_result f (fun m => In m src) x y
  | SelBinGen f sel => exists x, In x src /\ bin_result f (fun m => exists w w', sel src w = Ok (m, w')) x y
  | QuadGen f => exists x1 x2 y1 y2, In x1 src /\ In x2 src /\ quad_result f x1 x2 y1 y2 /\ (y = y1 \/ y = y2)
  | _ => False
  end.
(** a list of operators applied in order *)
Inductive chain : list (mon_op (G:=G) (F:=F) (W:=W)) -> I -> I -> Prop :=
| chain_nil x : chain [] x x
| chain_cons f fs x y z : mon_result f x y -> chain fs y z -> chain (f :: fs) x z.
(** a rate that always fires (flip(1) is always true) *)
Definition fires (flip : Q -> W -> res (bool * W)) (rate : Q) : Prop :=
  forall w b w', flip rate w = Ok (b, w') -> b = true.

(** operators that touch a single individual *)
Definition single (op : genop (G:=G) (F:=F) (W:=W)) : Prop :=
  match op with MonGen _ | BinGen _ | SelBinGen _ _ => True | _ => False end.
(** [y] is what operator [op] makes of [x], with mates of [src] *)
Definition made_from (src : list I) (op : genop (G:=G) (F:=F) (W:=W)) (x y : I) : Prop :=
  match op with
  | MonGen f => mon_result f x y
  | BinGen f => bin_result f (fun m => In m src) x y
  | SelBinGen f sel => bin_result f (fun m => exists w w', sel src w = Ok (m, w')) x y
  | _ => False
  end.
(** [x] (an evaluated individual) is strictly better than [y] (another) or not *)
Definition beats (ltb : F -> F -> bool) (x y : I) : Prop :=
  exists fx fy, fit x = Some fx /\ fit y = Some fy /\ ltb fy fx = true.
Definition beats_not (ltb : F -> F -> bool) (x y : I) : Prop :=
  exists fx fy, fit x = Some fx /\ fit y = Some fy /\ ltb fy fx = false.
(** an offspring of the one-to-one breeder: from a parent [x] of [src], [y] is made and
    evaluated to [v]; the offspring is [v] if the parent is not better (or if it is but the
    flip does not ask for replacement), the parent otherwise *)
Definition one_to_one_offspring (src : list I) (eval : I -> W -> res (I * W)) (ltb : F -> F -> bool)
  (accept : W -> res (bool * W)) (op : genop (G:=G) (F:=F) (W:=W)) (z : I) : Prop :=
  exists x y v, In x src /\ made_from src op x y /\ (exists w w', eval y w = Ok (v, w')) /\
    ((z = v /\ beats_not ltb x v) \/
     (z = v /\ beats ltb x v /\ exists w w', accept w = Ok (false, w')) \/
     (z = x /\ beats ltb x v /\ exists w w', accept w = Ok (true, w'))).
(** unevaluated or untouched *)
Definition fresh_or_same (x y : I) : Prop := fit y = None \/ y = x.
(** consecutive pairs crossed, a last odd individual left alone *)
Inductive pairwise (f : quad_op (G:=G) (F:=F) (W:=W)) : list I -> list I -> Prop :=
| pw_nil : pairwise f [] []
| pw_one x : pairwise f [x] [x]
| pw_two x y x' y' l l' : quad_result f x y x' y' -> pairwise f l l' -> pairwise f (x :: y :: l) (x' :: y' :: l').
End Results.
