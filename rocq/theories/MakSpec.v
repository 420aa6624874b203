(** What the options of the command line mean (C197-C202). *)
From Coq Require Import Arith ZArith QArith String DecimalString DecimalNat Bool.
From Verif Require Import Lib Outcome AlgoSpec MakModel.
From Coq Require Import List.
Import ListNotations.
Close Scope Q_scope.
Open Scope nat_scope.

(** The decimal writing of a number. *)
Definition dec (n : nat) : string := NilEmpty.string_of_uint (Nat.to_uint n).

(** The C library reads the constants the builders put back. *)
Definition reads_constants (atof : string -> dbl) : Prop :=
  atof "1"%string = Num 1 /\ atof "2"%string = Num 2 /\ atof "0.5"%string = Num (1#2).

(** Parameters a selector can work with; a NaN satisfies no comparison. *)
Definition valid_selector (s : selector) : Prop :=
  match s with
  | DetTour t => (2 <= t)%Z
  | StochTour p => p = Nan \/ exists q, p = Num q /\ (1#2 <= q <= 1)%Q
  | Ranking p e => (p = Nan \/ exists q, p = Num q /\ (1 < q <= 2)%Q) /\
                   (e = Nan \/ e = PInf \/ exists q, e = Num q /\ (0 < q)%Q)
  | _ => True
  end.

(** The names the help gives, and Random. *)
Definition selections : list string := ["DetTour"; "StochTour"; "Roulette"; "Ranking"; "Sharing"; "Sequential"; "Random"]%string.
Definition replacements : list string := ["Comma"; "Plus"; "EPTour"; "SSGAWorst"; "SSGADet"; "SSGAStoch"]%string.
Definition reductions : list string := ["Deterministic"; "Sequential"; "EP"; "DetTour"; "StochTour"; "Uniform"; "Random"]%string.

(** The replacement that "Comma, Plus or EPTour(T), SSGAWorst, SSGADet(T), SSGAStoch(t)" promises. *)
Definition promised (rep : option_) (r : replacer) : Prop :=
  match rep with
  | ("Comma", _) => r = Comma
  | ("Plus", _) => r = Plus
  | ("SSGAWorst", _) => r = SSGAWorst
  | ("EPTour", [a]) => forall n, a = dec n -> 2 <= n -> (Z.of_nat n < 2 ^ 31)%Z -> r = EPTour (Z.of_nat n)
  | ("SSGADet", [a]) => forall n, a = dec n -> 2 <= n -> (Z.of_nat n < 2 ^ 31)%Z -> r = SSGADet (Z.of_nat n)
  | _ => True
  end%string.

(** When a run with these options has to stop: at its [k]-th generation (from 1), [p] being what it
    sees then and [best] the best fitness of each generation. *)
Definition should_stop {F} (ltb : F -> F -> bool) (o : stop_options F) (best : nat -> F) (k : nat) (p : now F) : Prop :=
  (o_gen F o <> 0 /\ o_gen F o <= k) \/
  (exists mg sg, o_steady F o = Some (mg, sg) /\ stagnant ltb mg sg best k) \/
  (o_eval F o <> 0 /\ o_eval F o <= w_evals F p) \/
  (exists f, o_target F o = Some f /\ exists x, In x (w_pop F p) /\ ltb x f = false) \/
  (o_ctrlc F o = true /\ w_hit F p = true).

(** Some criterion was asked for. *)
Definition some_criterion {F} (o : stop_options F) : Prop :=
  o_gen F o <> 0 \/ o_steady F o <> None \/ o_eval F o <> 0 \/ o_target F o <> None \/ o_ctrlc F o = true.

(** The ranges of the options of the operator. *)
Definition in_range (o : op_options) : Prop :=
  (0 <= p_cross o <= 1)%Q /\ (0 <= p_mut o <= 1)%Q /\ (0 <= p_bit o <= 1#2)%Q /\ 0 < k_bit o /\
  (0 <= r_one o)%Q /\ (0 <= r_two o)%Q /\ (0 <= r_uniform o)%Q /\
  (0 <= r_flip o)%Q /\ (0 <= r_onebit o)%Q /\ (0 <= r_kbit o)%Q.
