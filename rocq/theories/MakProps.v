(** C197-C201: what is built from the options of the command line. *)
From Coq Require Import Arith ZArith QArith String Decimal DecimalString Lia Lqa Bool.
From Verif Require Import Lib Outcome OrderSpec PopModel SelectModel SelectSpec SelectQ BreedModel BreedSpec AlgoModel AlgoSpec MakModel MakSpec MakProofs.
From Coq Require Import List.
Import ListNotations.
Close Scope Q_scope.
Open Scope nat_scope.

(** the numbers the examples need *)
Definition ex_atof (s : string) : dbl :=
  if String.eqb s "1" then Num 1 else if String.eqb s "2" then Num 2 else if String.eqb s "0.5" then Num (1#2)
  else if String.eqb s "1.5" then Num (3#2) else if String.eqb s "nan" then Nan else Num 0.
Example reads_constants_ex : reads_constants ex_atof.
Proof. repeat split. Qed.

(** ** C197: the selection *)

(** whatever the option, with or without a distance: either a selector is built, or the builder throws because the name is not one of the
    documented ones, or because sharing has no distance *)
Theorem C197_selection_or_throw (atof : string -> dbl) (dist : bool) (pp : option_) :
  ((exists r, select_of atof dist pp = Ok r) <-> (In (fst pp) selections /\ (fst pp = "Sharing"%string -> dist = true))) /\
  ((exists r, select_of atof dist pp = Ok r) \/ select_of atof dist pp = Throw).
Proof.
  destruct (select_throws atof dist pp) as [K|[K N]]; split; auto.
  - split; auto. intros _. destruct K as (r & K). destruct pp as [name args]. cbn [fst].
    assert (T : forall n, In n selections -> forall d, (n = "Sharing"%string -> d = true) -> True) by auto.
    revert K. unfold select_of, selections.
    repeat (match goal with |- context [String.eqb name ?s] => destruct (String.eqb_spec name s) as [->|?] end;
            [intros K; cbn [In]; split; [tauto|intros; try discriminate; destruct args, dist; try discriminate; auto]|]).
    discriminate.
  - split; [intros (r & E); congruence|]. intros (I & D). destruct N as [N|[N M]]; [contradiction|]. specialize (D N). congruence.
Qed.
Example C197_selection_or_throw_ex :
  select_of ex_atof false ("Sharing"%string, []) = Throw /\ select_of ex_atof true ("Sharing"%string, []) = Ok (Sharing (Num (1#2)), ("Sharing", ["0.5"])%string) /\
  select_of ex_atof true ("Elitist"%string, []) = Throw.
Proof. repeat split. Qed.

(** what is built has parameters it can work with, whatever was typed *)
Theorem C197_valid_parameters (atof : string -> dbl) (dist : bool) (pp : option_) (s : selector) (pp' : option_) :
  select_of atof dist pp = Ok (s, pp') -> valid_selector s.
Proof. intros H. apply (select_valid atof dist pp s pp' H). Qed.
Example C197_valid_parameters_ex :
  select_of ex_atof false ("DetTour", ["1"])%string = Ok (DetTour 2, ("DetTour", ["1"])%string) /\
  select_of ex_atof false ("Ranking", ["x"; "y"; "z"])%string = Ok (Ranking (Num 2) (Num 1), ("Ranking", ["2"; "1"])%string).
Proof. repeat split. Qed.

(** the size of a tournament is the number that was typed *)
Theorem C197_tournament_size (atof : string -> dbl) (dist : bool) (n : nat) (rest : list string) :
  (Z.of_nat n < 2 ^ 31)%Z ->
  select_of atof dist ("DetTour"%string, dec n :: rest) = Ok (DetTour (Z.max 2 (Z.of_nat n)), ("DetTour"%string, dec n :: rest)).
Proof.
  intros B. unfold select_of. cbn [String.eqb Ascii.eqb Bool.eqb]. rewrite atoi_dec. unfold det_tour, as_unsigned.
  rewrite Z.mod_small by lia. do 3 f_equal. destruct (Z.ltb_spec (Z.of_nat n) 2); lia.
Qed.
Example C197_tournament_size_ex : select_of ex_atof false ("DetTour"%string, [dec 17]) = Ok (DetTour 17, ("DetTour", ["17"])%string).
Proof. reflexivity. Qed.

(** the parameters within their ranges are the ones used, the others are replaced by the documented ones *)
Theorem C197_parameters_used (atof : string -> dbl) (dist : bool) :
  (forall a rest q, atof a = Num q -> (1#2 <= q <= 1)%Q -> select_of atof dist ("StochTour"%string, a :: rest) = Ok (StochTour (Num q), ("StochTour"%string, a :: rest))) /\
  (forall a b p e, atof a = Num p -> atof b = Num e -> (1 < p <= 2)%Q -> (0 < e)%Q ->
     select_of atof dist ("Ranking"%string, [a; b]) = Ok (Ranking (Num p) (Num e), ("Ranking"%string, [a; b]))) /\
  (forall a b p e, atof a = Num p -> atof b = Num e -> (p <= 1 \/ 2 < p)%Q -> (0 < e)%Q ->
     select_of atof dist ("Ranking"%string, [a; b]) = Ok (Ranking (Num 2) (Num e), ("Ranking"%string, ["2"%string; b]))) /\
  (forall a b p e, atof a = Num p -> atof b = Num e -> (1 < p <= 2)%Q -> (e <= 0)%Q ->
     select_of atof dist ("Ranking"%string, [a; b]) = Ok (Ranking (Num p) (Num 1), ("Ranking"%string, [a; "1"%string]))) /\
  (forall a p, atof a = Num p -> (1 < p <= 2)%Q ->
     select_of atof dist ("Ranking"%string, [a]) = Ok (Ranking (Num p) (Num 1), ("Ranking"%string, [a; "1"%string]))) /\
  (forall a rest, select_of atof true ("Sharing"%string, a :: rest) = Ok (Sharing (atof a), ("Sharing"%string, a :: rest))) /\
  (forall a rest, select_of atof dist ("Sequential"%string, a :: rest)
     = Ok (InSequence (if string_dec a "unordered" then false else true), ("Sequential"%string, a :: rest))) /\
  (forall args, select_of atof dist ("Roulette"%string, args) = Ok (Roulette, ("Roulette"%string, args)) /\
                select_of atof dist ("Random"%string, args) = Ok (AtRandom, ("Random"%string, args))) /\
  (select_of atof dist ("DetTour", [])%string = Ok (DetTour 2, ("DetTour", ["2"])%string) /\
   select_of atof dist ("StochTour", [])%string = Ok (StochTour (Num 1), ("StochTour", ["1"])%string) /\
   select_of atof dist ("Ranking", [])%string = Ok (Ranking (Num 2) (Num 1), ("Ranking", ["2"; "1"])%string) /\
   select_of atof dist ("Sequential", [])%string = Ok (InSequence true, ("Sequential", ["ordered"])%string) /\
   select_of atof true ("Sharing", [])%string = Ok (Sharing (Num (1#2)), ("Sharing", ["0.5"])%string)).
Proof.
  assert (B : forall x y, (x <= y)%Q -> Qle_bool x y = true) by (intros; apply Qle_bool_iff; auto).
  assert (B' : forall x y, (y < x)%Q -> Qle_bool x y = false).
  { intros x y H. destruct (Qle_bool x y) eqn:E; auto. apply Qle_bool_iff in E. lra. }
  unfold select_of, ranking_of, stoch_tour. cbn [String.eqb Ascii.eqb Bool.eqb].
  split. { intros a rest q E H. rewrite E. cbn [dlt]. rewrite (B (1#2)%Q q) by tauto. cbn [negb dlt]. rewrite (B q 1%Q) by tauto. reflexivity. }
  split. { intros a b p e E1 E2 H1 H2. rewrite E1, E2. cbn [dle dlt]. rewrite (B' p 1%Q), (B p 2%Q), (B' e 0%Q) by lra. reflexivity. }
  split. { intros a b p e E1 E2 H1 H2. rewrite E1, E2. cbn [dle dlt].
    assert (C : Qle_bool p 1 || negb (Qle_bool p 2) = true) by (destruct H1; [rewrite B by auto; reflexivity|rewrite (B' p 2%Q) by auto; apply orb_true_r]).
    rewrite C, (B' e 0%Q) by lra. reflexivity. }
  split. { intros a b p e E1 E2 H1 H2. rewrite E1, E2. cbn [dle dlt]. rewrite (B' p 1%Q), (B p 2%Q), (B e 0%Q) by lra. reflexivity. }
  split. { intros a p E1 H1. rewrite E1. cbn [dle dlt]. rewrite (B' p 1%Q), (B p 2%Q) by lra. reflexivity. }
  split; [reflexivity|]. split; [|repeat split].
  intros a rest. destruct (string_dec a "unordered") as [->|N]; [reflexivity|]. apply String.eqb_neq in N. rewrite N. reflexivity.
Qed.

(** the replacements that take no parameter, and the others without theirs, are as documented whatever the selection; weak elitism wraps any of them *)
Theorem C197_replacement (atof : string -> dbl) (dist weak : bool) (sel : option_) (s : selector) (sel' : option_) (rep : option_) :
  select_of atof dist sel = Ok (s, sel') ->
  (forall r, In (rep, r) [(("Comma", [])%string, Comma); (("Plus", [])%string, Plus); (("SSGAWorst", [])%string, SSGAWorst);
                         (("EPTour", [])%string, EPTour 6); (("SSGADet", [])%string, SSGADet 2); (("SSGAStoch", [])%string, SSGAStoch (Num 1))] ->
    exists rep', make_algo atof dist sel rep weak = Ok (s, if weak then Weak r else r, sel', rep') /\ fst rep' = fst rep) /\
  (make_algo atof dist sel rep weak = Throw <-> ~ In (fst rep) replacements).
Proof.
  intros E. unfold make_algo. rewrite E. cbn [rbind]. split.
  - intros r I. cbn [In] in I. repeat destruct I as [I|I]; try contradiction; injection I as <- <-; cbn; eauto.
  - destruct rep as [name args]. cbn [fst]. unfold replace_of, replacements.
    repeat (match goal with |- context [String.eqb name ?t] => destruct (String.eqb_spec name t) as [->|?] end;
      [cbn [In]; split; [intros H; exfalso; revert H; destruct args; cbn [rbind]; try discriminate; unfold first_arg; destruct (nth_error (snd sel') 0); discriminate|tauto]|]).
    cbn [rbind In]. split; auto. intros _. intuition congruence.
Qed.
Example C197_replacement_ex : make_algo ex_atof false ("Roulette", [])%string ("EPTour", [])%string true = Ok (Roulette, Weak (EPTour 6), ("Roulette", [])%string, ("EPTour", ["6"])%string).
Proof. reflexivity. Qed.

(** building again from the option as it was put back (in the status file) gives the same selection *)
Theorem C197_status_file (atof : string -> dbl) (dist : bool) (pp : option_) (s : selector) (pp' : option_) :
  reads_constants atof -> select_of atof dist pp = Ok (s, pp') -> fst pp' = fst pp /\ select_of atof dist pp' = Ok (s, pp').
Proof. intros K H. split; [eapply select_valid; eauto|eapply select_idem; eauto]. Qed.
Example C197_status_file_ex : select_of ex_atof false ("Ranking", ["1.5"])%string = Ok (Ranking (Num (3#2)) (Num 1), ("Ranking", ["1.5"; "1"])%string).
Proof. reflexivity. Qed.

(** ** C198: what is promised and is not done *)

(** "EPTour(T), SSGADet(T)": the size of the tournament of the replacement is the one of the selection, whatever was typed *)
Theorem C198_replacement_size_refuted (atof : string -> dbl) (m n : nat) :
  (Z.of_nat m < 2 ^ 31)%Z ->
  make_algo atof false ("DetTour"%string, [dec m]) ("EPTour"%string, [dec n]) false
    = Ok (DetTour (Z.max 2 (Z.of_nat m)), EPTour (Z.max 2 (Z.of_nat m)), ("DetTour"%string, [dec m]), ("EPTour"%string, [dec n])) /\
  make_algo atof false ("DetTour"%string, [dec m]) ("SSGADet"%string, [dec n]) false
    = Ok (DetTour (Z.max 2 (Z.of_nat m)), SSGADet (Z.max 2 (Z.of_nat m)), ("DetTour"%string, [dec m]), ("SSGADet"%string, [dec n])).
Proof.
  intros B. unfold make_algo. rewrite (C197_tournament_size atof false m []) by auto. cbn [rbind]. unfold replace_of, first_arg. cbn [String.eqb Ascii.eqb Bool.eqb nth_error snd of_opt rbind].
  rewrite atoi_dec. unfold as_unsigned, at_least_two. rewrite Z.mod_small by lia.
  destruct (Z.ltb_spec (Z.of_nat m) 2); split; repeat f_equal; lia.
Qed.
Theorem C198_promise_refuted (atof : string -> dbl) :
  ~ (forall sel rep s r sel' rep', make_algo atof false sel rep false = Ok (s, r, sel', rep') -> promised rep r).
Proof.
  intros H. destruct (C198_replacement_size_refuted atof 2 10 ltac:(reflexivity)) as [E _].
  specialize (H _ _ _ _ _ _ E 10 eq_refl ltac:(lia) ltac:(reflexivity)). discriminate.
Qed.
Example C198_promise_ex : make_algo ex_atof false ("DetTour", ["2"])%string ("EPTour", ["10"])%string false
  = Ok (DetTour 2, EPTour 2, ("DetTour", ["2"])%string, ("EPTour", ["10"])%string).
Proof. reflexivity. Qed.

(** and with a selection that has no argument, the argument of the replacement is read where there is none *)
Theorem C198_no_argument_refuted (atof : string -> dbl) (dist weak : bool) (sel : string) (rep : option_) :
  In sel ["Roulette"; "Random"]%string -> In (fst rep) ["EPTour"; "SSGADet"; "SSGAStoch"]%string -> snd rep <> [] ->
  make_algo atof dist (sel, []) rep weak = UB.
Proof.
  intros S R N. destruct rep as [name [|a args]]; [cbn in N; congruence|]. cbn [fst] in R.
  destruct S as [<-|[<-|[]]], R as [<-|[<-|[<-|[]]]]; reflexivity.
Qed.

(** without an argument the replacement is the documented one, but the argument put back then changes the replacement built from the status file *)
Theorem C198_status_file_refuted (atof : string -> dbl) (m : nat) :
  (Z.of_nat m < 2 ^ 31)%Z ->
  make_algo atof false ("DetTour"%string, [dec m]) ("EPTour"%string, []) false
    = Ok (DetTour (Z.max 2 (Z.of_nat m)), EPTour 6, ("DetTour"%string, [dec m]), ("EPTour", ["6"])%string) /\
  make_algo atof false ("DetTour"%string, [dec m]) ("EPTour", ["6"])%string false
    = Ok (DetTour (Z.max 2 (Z.of_nat m)), EPTour (Z.max 2 (Z.of_nat m)), ("DetTour"%string, [dec m]), ("EPTour", ["6"])%string).
Proof.
  intros B. split; [|exact (proj1 (C198_replacement_size_refuted atof m 6 B))].
  unfold make_algo. rewrite (C197_tournament_size atof false m []) by auto. reflexivity.
Qed.

(** a pressure or an exponent that is not a number passes the tests *)
Theorem C198_nan_refuted (atof : string -> dbl) (dist : bool) : atof "nan"%string = Nan ->
  select_of atof dist ("Ranking", ["nan"; "nan"])%string = Ok (Ranking Nan Nan, ("Ranking", ["nan"; "nan"])%string).
Proof. intros E. unfold select_of, ranking_of. cbn [String.eqb Ascii.eqb Bool.eqb]. rewrite E. reflexivity. Qed.

(** "Only the best will be retained": the first ones are *)
Theorem C198_best_retained_refuted : exists (l : list (indiv nat nat)) (p : list (indiv nat nat)) (x : indiv nat nat),
  make_pop (fun _ => tt) (Ind 0 None) (fun x g => Ok (x, g)) 1 0 1 (Some (Some (l, tt))) false tt = Ok (p, tt) /\
  In x l /\ ~ In x p /\ (exists f, fit x = Some f /\ forall y g, In y p -> fit y = Some g -> g < f).
Proof.
  exists [Ind 0 (Some 1); Ind 1 (Some 9)], [Ind 0 (Some 1)], (Ind 1 (Some 9)). cbn. split; [reflexivity|]. split; auto. split; [intros [H|[]]; discriminate|].
  exists 9. split; auto. intros y g [<-|[]] E. injection E as <-. lia.
Qed.

(** "Warning: no crossover", "no mutation": with all their rates null the operators are applied all the same, and read past the end *)
Theorem C198_no_rates_refuted (u : Q) (n : nat) : rng_roulette (repeat 0%Q n) 0 u = UB.
Proof.
  unfold rng_roulette. cbn [Qeq_bool].
  assert (S : forall n, (qsum (repeat 0%Q n) == 0)%Q) by (induction n0 as [|k IH]; cbn; [reflexivity|rewrite IH; reflexivity]).
  replace (Qeq_bool 0 0) with true by reflexivity.
  assert (L : forall n i r, (r == 0)%Q -> rng_roulette_loop (repeat 0%Q n) i r = UB).
  { induction n0 as [|k IH]; intros i r E; cbn [repeat rng_roulette_loop]; replace (Qle_bool 0 r) with true by (symmetry; apply Qle_bool_iff; rewrite E; lra); auto.
    apply IH. rewrite E. ring. }
  apply L. rewrite S. ring.
Qed.
Example C198_no_rates_ex {G F W} (one uniform two : quad_op (G:=G) (F:=F) (W:=W)) (x y : indiv G F) (w : W) (u : Q) :
  prop_quad (fun rates w => let! i := rng_roulette rates 0 u in Ok (i, w)) [(0%Q, one); (0%Q, uniform); (0%Q, two)] x y w = UB.
Proof. unfold prop_quad. cbn [map fst]. change [0%Q; 0%Q; 0%Q] with (repeat 0%Q 3). rewrite C198_no_rates_refuted. reflexivity. Qed.

(** ** C199: the initial population *)

(** the population has the size asked for, whatever is loaded; what is loaded comes first, as it was saved or without its fitness; without a file the
    generator starts from the seed, with one it goes on from its saved state: the population depends on nothing else *)
Theorem C199_initial_population {G F R} (reseed : nat -> R) (blank : indiv G F) (init : indiv G F -> R -> res (indiv G F * R))
  (seed clock size : nat) (load : option (option (list (indiv G F) * R))) (recompute : bool) (g : R) (pop : list (indiv G F)) (g' : R) :
  make_pop reseed blank init seed clock size load recompute g = Ok (pop, g') ->
  length pop = size /\
  (forall l h, load = Some (Some (l, h)) ->
     firstn (length l) pop = firstn size (if recompute then map (fun x => Ind (geno x) None) l else l) /\
     (forall seed2 clock2 g2, make_pop reseed blank init seed2 clock2 size load recompute g2 = Ok (pop, g')) /\
     (size <= length l -> g' = h)) /\
  (load = None -> seed <> 0 -> forall clock2 g2, make_pop reseed blank init seed clock2 size load recompute g2 = Ok (pop, g')) /\
  load <> Some None.
Proof.
  intros H. split; [|split; [|split]].
  - unfold make_pop in H. destruct load as [[[l h]|]|]; cbn [rbind] in H; [|discriminate|].
    + match type of H with context [length (if ?b then ?x else ?y)] => set (q := if b then x else y) in * end.
      assert (Q : length q <= size). { unfold q. destruct (Nat.ltb_spec size (length (if recompute then map invalidate l else l))); [rewrite firstn_length; lia|lia]. }
      destruct (Nat.ltb_spec (length q) size); [apply append_ok in H; tauto|]. injection H as <- <-. lia.
    + cbn [length] in H. destruct (Nat.ltb_spec 0 size); [apply append_ok in H; tauto|]. injection H as <- <-. cbn. lia.
  - intros l h ->. split; [|split].
    + unfold make_pop in H. cbn [rbind] in H.
      assert (Ml : length (if recompute then map invalidate l else l) = length l) by (destruct recompute; rewrite ?map_length; auto).
      change (fun x => Ind (geno x) None) with (@invalidate G F). set (l' := if recompute then map invalidate l else l) in *.
      rewrite Ml in H. destruct (Nat.ltb_spec size (length l)).
      * rewrite firstn_length_le in H by lia. rewrite Nat.ltb_irrefl in H. injection H as <- <-. rewrite firstn_firstn. f_equal. lia.
      * rewrite Ml in H. rewrite (firstn_all2 l') by lia. destruct (Nat.ltb_spec (length l) size).
        -- apply append_ok in H as (_ & H). rewrite Ml in H. exact H.
        -- injection H as <- <-. rewrite <- Ml. apply firstn_all.
    + intros seed2 clock2 g2. exact H.
    + unfold make_pop in H. cbn [rbind] in H. intros S.
      assert (Ml : length (if recompute then map invalidate l else l) = length l) by (destruct recompute; rewrite ?map_length; auto).
      rewrite Ml in H. destruct (Nat.ltb_spec size (length l)).
      * rewrite firstn_length_le in H by lia. rewrite Nat.ltb_irrefl in H. injection H as _ <-. auto.
      * rewrite Ml in H. destruct (Nat.ltb_spec (length l) size); [lia|]. injection H as _ <-. auto.
  - intros -> N clock2 g2. unfold make_pop in *. destruct (Nat.eqb_spec seed 0); [contradiction|]. exact H.
  - intros ->. cbn in H. discriminate.
Qed.
Example C199_initial_population_ex :
  make_pop (fun s => s) (Ind 0 None) (fun (x : indiv nat nat) g => Ok (Ind g None, g + 1)) 7 99 3 (Some (Some ([Ind 5 (Some 50)], 20))) true 1
  = Ok ([Ind 5 None; Ind 20 None; Ind 21 None], 22) /\
  make_pop (fun s => s) (Ind 0 None) (fun (x : indiv nat nat) g => Ok (Ind g None, g + 1)) 7 99 2 None true 1 = Ok ([Ind 7 None; Ind 8 None], 9).
Proof. split; reflexivity. Qed.

(** the individuals that are missing are drawn one after the other by the initialiser *)
Theorem C199_fresh_individuals {G F R} (reseed : nat -> R) (blank : indiv G F) (init : indiv G F -> R -> res (indiv G F * R))
  (seed clock size : nat) (g : R) (pop : list (indiv G F)) (g' : R) :
  make_pop reseed blank init seed clock size None false g = Ok (pop, g') ->
  exists gs, length gs = S size /\ nth_error gs 0 = Some (reseed (if seed =? 0 then clock else seed)) /\ nth_error gs size = Some g' /\
  forall i, i < size -> exists a b x, nth_error gs i = Some a /\ nth_error gs (S i) = Some b /\ nth_error pop i = Some x /\ init blank a = Ok (x, b).
Proof.
  assert (D : forall n h l h', init_many blank init n h = Ok (l, h') -> exists gs, length gs = S n /\ nth_error gs 0 = Some h /\ nth_error gs n = Some h' /\
    forall i, i < n -> exists a b x, nth_error gs i = Some a /\ nth_error gs (S i) = Some b /\ nth_error l i = Some x /\ init blank a = Ok (x, b)).
  { induction n as [|n IH]; intros h l h' H; cbn [init_many] in H.
    - injection H as <- <-. exists [h]. repeat split; auto. intros; lia.
    - apply rbind_ok in H as ((x & h1) & E & H). apply rbind_ok in H as ((r & h2) & E2 & H). injection H as <- <-.
      destruct (IH h1 r h2 E2) as (gs & A & B & C & K). exists (h :: gs). cbn [length nth_error]. repeat split; auto.
      intros [|i] Hi; [exists h, h1, x; auto|]. apply K. lia. }
  unfold make_pop. cbn [rbind length]. intros H. destruct (Nat.ltb_spec 0 size).
  - unfold append_to in H. cbn [length Nat.ltb Nat.leb] in H. rewrite Nat.sub_0_r in H. apply rbind_ok in H as ((r & h) & E & H). injection H as <- <-.
    destruct (D _ _ _ _ E) as (gs & K). exists gs. exact K.
  - assert (size = 0) by lia. subst size. injection H as <- <-. eexists [_]. repeat split. intros; lia.
Qed.
Example C199_fresh_individuals_ex : exists pop g', make_pop (fun s => s) (Ind 0 None) (fun (x : indiv nat nat) g => Ok (Ind g None, g + 1)) 0 99 2 None false 1 = Ok (pop, g') /\ map geno pop = [99; 100].
Proof. do 2 eexists. split; reflexivity. Qed.

(** ** C200: the stopping criterion *)

(** the builder throws exactly when no criterion was asked for; else a run stops at the first generation at which some criterion asked for is met, and
    goes on before *)
Theorem C200_stopping {F} (ltb : F -> F -> bool) (nth_el : forall T : Type, (T -> T -> bool) -> nat -> list T -> list T) (o : stop_options F)
  (ps : list (now F)) (bs : list bool) (best : nat -> F) :
  strict_weak_order ltb -> std_nth_ok nth_el ->
  stop_answers F ltb nth_el o ps = Ok bs ->
  (forall j p, nth_error ps j = Some p -> is_best ltb (w_pop F p) (best (S j))) ->
  (forall k, k < length bs -> exists p b, nth_error ps k = Some p /\ nth_error bs k = Some b /\ (S k < length bs -> b = true) /\
     (b = false <-> should_stop ltb o best (S k) p)) /\
  (length bs = length ps \/ last bs true = false).
Proof. intros Hs Hn H B. apply (stop_answers_ok F ltb nth_el Hs Hn o ps bs best H B). Qed.
Theorem C200_throws {F} (ltb : F -> F -> bool) (nth_el : forall T : Type, (T -> T -> bool) -> nat -> list T -> list T) (o : stop_options F) :
  (make_continue F ltb nth_el o = Throw <-> ~ some_criterion o) /\ (some_criterion o -> exists cs, make_continue F ltb nth_el o = Ok cs).
Proof.
  destruct (make_members F ltb nth_el o) as [[E N]|[E S]]; rewrite E; split; auto; try tauto.
  - split; [discriminate|contradiction].
  - eauto.
Qed.
(** with a maximum number of generations no run goes beyond *)
Theorem C200_generations {F} (ltb : F -> F -> bool) (nth_el : forall T : Type, (T -> T -> bool) -> nat -> list T -> list T) (o : stop_options F)
  (ps : list (now F)) (bs : list bool) (best : nat -> F) :
  strict_weak_order ltb -> std_nth_ok nth_el ->
  stop_answers F ltb nth_el o ps = Ok bs ->
  (forall j p, nth_error ps j = Some p -> is_best ltb (w_pop F p) (best (S j))) ->
  o_gen F o <> 0 -> length bs <= o_gen F o.
Proof.
  intros Hs Hn H B N. destruct (stop_answers_ok F ltb nth_el Hs Hn o ps bs best H B) as (A & _).
  destruct (le_lt_dec (length bs) (o_gen F o)) as [|L]; auto.
  destruct (A (o_gen F o - 1) ltac:(lia)) as (p & b & _ & _ & C & D). specialize (C ltac:(lia)). subst b.
  assert (X : true = false); [|discriminate]. apply D. left. split; auto. lia.
Qed.

Example C200_ex : stop_answers nat Nat.ltb OrderLemmas.the_nth (StopOptions nat 0 None 30 (Some 9) true) [Now nat [1; 4] 10 false; Now nat [2; 4] 20 false; Now nat [5; 9] 25 false; Now nat [5; 9] 30 true]
  = Ok [true; true; false].
Proof. reflexivity. Qed.
Example C200_generations_ex : stop_answers nat Nat.ltb OrderLemmas.the_nth (StopOptions nat 2 None 0 None false) (repeat (Now nat [3] 0 false) 5) = Ok [true; false].
Proof. reflexivity. Qed.
Example C200_throws_ex : make_continue nat Nat.ltb OrderLemmas.the_nth (StopOptions nat 0 None 0 None false) = Throw.
Proof. reflexivity. Qed.

(** ** C201: the reduction and the operator of the genetic algorithm *)
Theorem C201_reduction (atof : string -> dbl) (pp : option_) :
  reads_constants atof ->
  (forall r pp', reduce_of atof pp = Ok (r, pp') ->
     match r with
     | REP t | RDet t => (2 <= t)%Z
     | RStoch p => p = Nan \/ exists q, p = Num q /\ (1#2 <= q <= 1)%Q
     | _ => True
     end /\ reduce_of atof pp' = Ok (r, pp')) /\
  (reduce_of atof pp = Throw <-> ~ In (fst pp) reductions \/
     (fst pp = "StochTour"%string /\ exists a rest, snd pp = a :: rest /\ (dle (atof a) (Num (1#2)) = true \/ dlt (Num 1) (atof a) = true))) /\
  ((exists r, reduce_of atof pp = Ok r) \/ reduce_of atof pp = Throw).
Proof.
  intros (K1 & K2 & K5). destruct pp as [name args]. cbn [fst snd].
  assert (T : forall t, (2 <= at_least_two t)%Z) by (intros t; unfold at_least_two; destruct (Z.ltb_spec t 2); lia).
  assert (N : forall s, name <> s -> String.eqb name s = false) by (intros s; apply String.eqb_neq).
  unfold reduce_of, reductions.
  destruct (String.eqb_spec name "Deterministic") as [->|N1]; [cbn; repeat split; eauto; intros; try discriminate; [injection H as <- <-; auto|injection H as <- <-; auto|destruct H as [H|[H _]]; [tauto|discriminate]]|].
  destruct (String.eqb_spec name "Sequential") as [->|N2]; [cbn; repeat split; eauto; intros; try discriminate; [injection H as <- <-; auto|injection H as <- <-; auto|destruct H as [H|[H _]]; [tauto|discriminate]]|].
  cbn [orb].
  destruct (String.eqb_spec name "EP") as [->|N3].
  { destruct args as [|a args]; (split; [intros r pp' H; injection H as <- <-; split; [apply T|reflexivity]|]); (split; [|eauto]);
      (split; [discriminate|intros [H|[H _]]; [cbn in H; tauto|discriminate]]). }
  destruct (String.eqb_spec name "DetTour") as [->|N4].
  { destruct args as [|a args]; (split; [intros r pp' H; injection H as <- <-; split; [apply T|reflexivity]|]); (split; [|eauto]);
      (split; [discriminate|intros [H|[H _]]; [cbn in H; tauto|discriminate]]). }
  destruct (String.eqb_spec name "StochTour") as [->|N5].
  { destruct args as [|a args].
    - split; [intros r pp' H; injection H as <- <-; split|]; [right; exists 1%Q; split; [reflexivity|lra]| |split; [|eauto]].
      + cbn [String.eqb Ascii.eqb Bool.eqb orb]. rewrite K1. reflexivity.
      + split; [discriminate|]. intros [H|[_ (a & rest & H & _)]]; [cbn in H; tauto|discriminate].
    - destruct (dle (atof a) (Num (1#2)) || dlt (Num 1) (atof a)) eqn:E.
      + apply orb_true_iff in E. split; [discriminate|]. split; [|auto]. split; auto. intros _. right. split; auto. exists a, args. auto.
      + apply orb_false_iff in E as (E1 & E2). split; [|split; [|eauto]].
        * intros r pp' H. injection H as <- <-. split.
          -- unfold truncate_rate. destruct (atof a) as [q| | |]; try discriminate; auto.
             right. rewrite ?E2. cbn in E1, E2 |- *.
             destruct (Qle_bool q (1#2)) eqn:Q1; [discriminate|]. 
             assert (A1 : (1#2 < q)%Q) by (apply Qnot_le_lt; intros C; apply Qle_bool_iff in C; congruence).
             assert (A2 : (q <= 1)%Q) by (destruct (Qle_bool q 1) eqn:Q2; [apply Qle_bool_iff; auto|discriminate]).
             destruct (negb (Qle_bool (1#2) q)) eqn:Q3; [exfalso; apply negb_true_iff in Q3; assert (C : Qle_bool (1#2) q = true) by (apply Qle_bool_iff; lra); congruence|].
             exists q. rewrite ?E2. split; [|lra]. reflexivity.
          -- cbn [String.eqb Ascii.eqb Bool.eqb orb]. rewrite E1, E2. reflexivity.
        * split; [discriminate|]. intros [H|[_ (b & rest & H & C)]]; [cbn in H; tauto|]. injection H as -> ->. destruct C; congruence. }
  destruct (String.eqb_spec name "Uniform") as [->|N6]; [cbn; repeat split; eauto; intros; try discriminate; [injection H as <- <-; auto|injection H as <- <-; auto|destruct H as [H|[H _]]; [tauto|discriminate]]|].
  destruct (String.eqb_spec name "Random") as [->|N7]; [cbn; repeat split; eauto; intros; try discriminate; [injection H as <- <-; auto|injection H as <- <-; auto|destruct H as [H|[H _]]; [tauto|discriminate]]|].
  cbn [orb]. split; [discriminate|]. split; auto. split; auto. intros _. left. cbn. intuition congruence.
Qed.
Example C201_reduction_ex : reduce_of ex_atof ("StochTour", ["0.5"])%string = Throw /\ reduce_of ex_atof ("EP", [])%string = Ok (REP 6, ("EP", ["6"])%string) /\
  reduce_of ex_atof ("StochTour", ["1"])%string = Ok (RStoch (Num 1), ("StochTour", ["1"])%string).
Proof. repeat split. Qed.

(** the names of the reductions are read as they are documented *)
Theorem C201_reduction_built (atof : string -> dbl) (n : nat) (rest : list string) : (Z.of_nat n < 2 ^ 31)%Z ->
  reduce_of atof ("EP"%string, dec n :: rest) = Ok (REP (Z.max 2 (Z.of_nat n)), ("EP"%string, dec n :: rest)) /\
  reduce_of atof ("DetTour"%string, dec n :: rest) = Ok (RDet (Z.max 2 (Z.of_nat n)), ("DetTour"%string, dec n :: rest)) /\
  (forall args, reduce_of atof ("Deterministic"%string, args) = Ok (RTruncate, ("Deterministic"%string, args)) /\
                reduce_of atof ("Sequential"%string, args) = Ok (RTruncate, ("Sequential"%string, args)) /\
                reduce_of atof ("Uniform"%string, args) = Ok (RRandom, ("Uniform"%string, args)) /\
                reduce_of atof ("Random"%string, args) = Ok (RRandom, ("Random"%string, args))).
Proof.
  intros B. unfold reduce_of. cbn [String.eqb Ascii.eqb Bool.eqb orb]. rewrite atoi_dec. unfold at_least_two, as_unsigned. rewrite Z.mod_small by lia.
  destruct (Z.ltb_spec (Z.of_nat n) 2); repeat split; repeat f_equal; lia.
Qed.

Theorem C201_reduction_rate (atof : string -> dbl) (a : string) (rest : list string) (q : Q) : atof a = Num q -> (1#2 < q <= 1)%Q ->
  reduce_of atof ("StochTour"%string, a :: rest) = Ok (RStoch (Num q), ("StochTour"%string, a :: rest)).
Proof.
  intros E H. unfold reduce_of. cbn [String.eqb Ascii.eqb Bool.eqb orb]. rewrite E. unfold truncate_rate. cbn [dle dlt].
  assert (A : Qle_bool q (1#2)%Q = false) by (destruct (Qle_bool q (1#2)%Q) eqn:C; auto; apply Qle_bool_iff in C; lra).
  assert (B : Qle_bool q 1%Q = true) by (apply Qle_bool_iff; lra). rewrite A, B. cbn [orb negb dlt]. rewrite ?B. reflexivity.
Qed.

Section Operator.
Context {G F W : Type}.
Context (one_point uniform two_points : quad_op (G:=G) (F:=F) (W:=W)).
Context (bit_flip : Q -> mon_op (G:=G) (F:=F) (W:=W)) (bits_flip : nat -> mon_op (G:=G) (F:=F) (W:=W)).
Context (wheel : list Q -> W -> res (nat * W)).
Theorem C201_operator_throws (name : string) (o : op_options) :
  (make_op one_point uniform two_points bit_flip bits_flip wheel name o = Throw <-> name <> "SGA"%string \/ ~ in_range o) /\
  (name = "SGA"%string -> in_range o -> exists op, make_op one_point uniform two_points bit_flip bits_flip wheel name o = Ok op).
Proof.
  assert (A : name = "SGA"%string -> in_range o -> exists op, make_op one_point uniform two_points bit_flip bits_flip wheel name o = Ok op).
  { intros -> (A1 & A2 & A3 & A4 & A5 & A6 & A7 & A8 & A9 & A10). unfold make_op. cbn [String.eqb Ascii.eqb Bool.eqb negb].
    rewrite !(proj2 (neg_false _)), !(proj2 (over_false _ _)) by lra. cbn [orb]. destruct (Nat.eqb_spec (k_bit o) 0); [lia|]. eauto. }
  split; auto. split.
  - intros T. destruct (String.eqb_spec name "SGA") as [E|E]; auto. right. intros R. destruct (A E R). congruence.
  - unfold make_op. intros [N|N]; [destruct (String.eqb_spec name "SGA"); [contradiction|reflexivity]|].
    destruct (negb (String.eqb name "SGA")); auto.
    destruct (neg_ (p_cross o)) eqn:E1; auto. destruct (over (p_cross o) 1) eqn:E2; auto. destruct (neg_ (p_mut o)) eqn:E3; auto. destruct (over (p_mut o) 1) eqn:E4; auto.
    destruct (neg_ (r_one o)) eqn:E5; auto. destruct (neg_ (r_two o)) eqn:E6; auto. destruct (neg_ (r_uniform o)) eqn:E7; auto.
    destruct (neg_ (p_bit o)) eqn:E8; auto. destruct (over (p_bit o) (1#2)) eqn:E9; auto. destruct (neg_ (r_flip o)) eqn:E10; auto. destruct (neg_ (r_onebit o)) eqn:E11; auto.
    destruct (Nat.eqb_spec (k_bit o) 0); auto. destruct (neg_ (r_kbit o)) eqn:E12; auto.
    cbn [orb]. exfalso. apply N. apply neg_false in E1, E3, E5, E6, E7, E8, E10, E11, E12. apply over_false in E2, E4, E9. unfold in_range. repeat split; auto. lia.
Qed.

(** one application, on a populator that has nothing left to work on: two parents are selected; with the probability given they are crossed over by one of
    the crossovers whose rate is not null, else copied; then each child is mutated, with the probability given, by one of the mutations whose rate is
    not null *)
Definition crossed (o : op_options) (x y x' y' : indiv G F) : Prop :=
  (0 < p_cross o)%Q /\ exists i wi wi', wheel [r_one o; r_uniform o; r_two o] wi = Ok (i, wi') /\
  match i with
  | 0 => (0 < r_one o)%Q /\ quad_result one_point x y x' y'
  | 1 => (0 < r_uniform o)%Q /\ quad_result uniform x y x' y'
  | 2 => (0 < r_two o)%Q /\ quad_result two_points x y x' y'
  | _ => False
  end.
Definition mutated (flip : Q -> W -> res (bool * W)) (o : op_options) (x x' : indiv G F) : Prop :=
  (exists w w', flip (p_mut o) w = Ok (false, w') /\ x' = x) \/
  (exists w w', flip (p_mut o) w = Ok (true, w')) /\
  exists i wi wi', wheel [r_flip o; r_onebit o; r_kbit o] wi = Ok (i, wi') /\
  match i with
  | 0 => (0 < r_flip o)%Q /\ mon_result (bit_flip (p_bit o)) x x'
  | 1 => (0 < r_onebit o)%Q /\ mon_result (bits_flip 1) x x'
  | 2 => (0 < r_kbit o)%Q /\ mon_result (bits_flip (k_bit o)) x x'
  | _ => False
  end.
(** the roulette never answers an entry whose rate is null *)
Definition wheel_ok : Prop := forall rates w i w', non_negative rates -> wheel rates w = Ok (i, w') -> exists r, nth_error rates i = Some r /\ (0 < r)%Q.

Lemma quad_of (ops : list (Q * quad_op (G:=G) (F:=F) (W:=W))) (x y : indiv G F) w x' y' b w' : wheel_ok -> prop_quad wheel ops x y w = Ok (x', y', b, w') -> non_negative (map fst ops) ->
  exists i r f w1, wheel (map fst ops) w = Ok (i, w1) /\ nth_error ops i = Some (r, f) /\ (0 < r)%Q /\ f x y w1 = Ok (x', y', b, w').
Proof.
  intros Hw H Hn. unfold prop_quad in H. apply rbind_ok in H as ((i & w1) & E & H). apply rbind_ok in H as ((r & f) & E2 & H).
  destruct (Hw _ _ _ _ Hn E) as (r' & E3 & P). destruct (nth_error ops i) as [[r2 f2]|] eqn:E4; [|discriminate]. injection E2 as -> ->.
  rewrite nth_error_map, E4 in E3. injection E3 as <-. exists i, r, f, w1. auto.
Qed.
Lemma mon_of (ops : list (Q * mon_op (G:=G) (F:=F) (W:=W))) (x : indiv G F) w x' b w' : wheel_ok -> prop_mon wheel ops x w = Ok (x', b, w') -> non_negative (map fst ops) ->
  exists i r f w1, wheel (map fst ops) w = Ok (i, w1) /\ nth_error ops i = Some (r, f) /\ (0 < r)%Q /\ f x w1 = Ok (x', b, w').
Proof.
  intros Hw H Hn. unfold prop_mon in H. apply rbind_ok in H as ((i & w1) & E & H). apply rbind_ok in H as ((r & f) & E2 & H).
  destruct (Hw _ _ _ _ Hn E) as (r' & E3 & P). destruct (nth_error ops i) as [[r2 f2]|] eqn:E4; [|discriminate]. injection E2 as -> ->.
  rewrite nth_error_map, E4 in E3. injection E3 as <-. exists i, r, f, w1. auto.
Qed.
Lemma set_last {A} (l : list A) x x' r : upd (l ++ x :: r) (length l) x' = Some (l ++ x' :: r).
Proof. induction l as [|a l IH]; cbn; auto. rewrite IH. auto. Qed.

Theorem C201_one_application (source : list (indiv G F)) (select : W -> res (indiv G F * W)) (flip : Q -> W -> res (bool * W))
  (name : string) (o : op_options) (op : genop (G:=G) (F:=F) (W:=W)) (p p' : populator (G:=G) (F:=F)) (w w' : W) :
  wheel_ok -> fires flip 1%Q ->
  make_op one_point uniform two_points bit_flip bits_flip wheel name o = Ok op ->
  cur p = length (dest p) ->
  apply source select flip wheel op p w = Ok (p', w') ->
  exists w0 k w1 x w2 y w3 x1 y1 x2 y2, wheel [p_cross o; 1 - p_cross o]%Q w0 = Ok (k, w1) /\ select w1 = Ok (x, w2) /\ select w2 = Ok (y, w3) /\
    (k = 0 /\ crossed o x y x1 y1 \/ k = 1 /\ (p_cross o < 1)%Q /\ x1 = x /\ y1 = y) /\
    mutated flip o x1 x2 /\ mutated flip o y1 y2 /\
    dest p' = dest p ++ [x2; y2] /\ cur p' = length (dest p').
Proof.
  intros Hw Hf Hm Hc H.
  assert (R : name = "SGA"%string /\ in_range o).
  { destruct (C201_operator_throws name o) as ((_ & T) & _). split.
    - destruct (string_dec name "SGA"); auto. rewrite T in Hm by auto. discriminate.
    - unfold in_range. destruct (neg_ (p_cross o)) eqn:E1; [|]. all: unfold make_op in Hm; destruct (negb (String.eqb name "SGA")); try discriminate; try (rewrite E1 in Hm; discriminate).
      rewrite E1 in Hm. destruct (over (p_cross o) 1) eqn:E2; [discriminate|]. destruct (neg_ (p_mut o)) eqn:E3; [discriminate|]. destruct (over (p_mut o) 1) eqn:E4; [discriminate|].
      cbn [orb] in Hm.
      destruct (neg_ (r_one o)) eqn:E5; [discriminate|]. destruct (neg_ (r_two o)) eqn:E6; [discriminate|]. destruct (neg_ (r_uniform o)) eqn:E7; [discriminate|].
      destruct (neg_ (p_bit o)) eqn:E8; [discriminate|]. destruct (over (p_bit o) (1#2)) eqn:E9; [discriminate|]. cbn [orb] in Hm. destruct (neg_ (r_flip o)) eqn:E10; [discriminate|]. destruct (neg_ (r_onebit o)) eqn:E11; [discriminate|].
      destruct (Nat.eqb_spec (k_bit o) 0); [discriminate|]. destruct (neg_ (r_kbit o)) eqn:E12; [discriminate|].
      apply neg_false in E1, E3, E5, E6, E7, E8, E10, E11, E12. apply over_false in E2, E4, E9. repeat split; auto. lia. }
  destruct R as (-> & A1 & A2 & A3 & A4 & A5 & A6 & A7 & A8 & A9 & A10). unfold make_op in Hm. cbn [String.eqb Ascii.eqb Bool.eqb negb] in Hm.
  rewrite !(proj2 (neg_false _)), !(proj2 (over_false _ _)) in Hm by lra. cbn [orb] in Hm. destruct (Nat.eqb_spec (k_bit o) 0); [lia|]. injection Hm as <-.
  cbn [apply] in H. destruct p as [d c]. cbn [dest cur] in *. subst c. rewrite Nat.sub_diag in H.
  apply rbind_ok in H as ((p1 & w1) & E1 & H). apply rbind_ok in H as ((p2 & w2) & E2 & H). injection H as <- <-.
  cbn [seq_loop] in E1. apply rbind_ok in E1 as ((b & wb) & Eb & E1). assert (b = true) by (eapply Hf; eauto). subst b.
  apply rbind_ok in E1 as ((p3 & w3) & E3 & E1). apply rbind_ok in E3 as ((i & w4) & E4 & E3). apply rbind_ok in E3 as ((p4 & w5) & E5 & E3). injection E3 as <- <-.
  cbn [map fst] in E4. assert (N4 : non_negative [p_cross o; (1 - p_cross o)%Q]) by (intros f [<-|[<-|[]]]; lra). destruct (Hw _ _ _ _ N4 E4) as (r & Ei & Pr).
  assert (Q : exists f, apply source select flip wheel (QuadGen f) (Pop d (length d)) w4 = Ok (p4, w5) /\
     forall x y wf x' y' ch wf', f x y wf = Ok (x', y', ch, wf') -> i = 0 /\ crossed o x y (touch ch x') (touch ch y') \/ i = 1 /\ (p_cross o < 1)%Q /\ touch ch x' = x /\ touch ch y' = y).
  { destruct i as [|[|i]]; [| |destruct i; discriminate].
    - injection Ei as <-. exists (prop_quad wheel [(r_one o, one_point); (r_uniform o, uniform); (r_two o, two_points)]). split; [exact E5|]. intros x y wf x' y' ch wf' Q. left. split; auto. split; auto.
      assert (N5 : non_negative [r_one o; r_uniform o; r_two o]) by (intros f [<-|[<-|[<-|[]]]]; assumption).
      destruct (quad_of _ _ _ _ _ _ _ _ Hw Q N5) as (j & r & f & w6 & J & K & P & E). exists j, wf, w6. split; [exact J|].
      destruct j as [|[|[|j]]]; [| | |destruct j; discriminate]; injection K as <- <-; (split; [exact P|]); unfold quad_result; exists w6, x', y', ch, wf'; repeat split; auto.
    - injection Ei as <-. exists quad_clone. split; [exact E5|]. intros x y wf x' y' ch wf' Q. unfold quad_clone in Q. injection Q as <- <- <- <-. right. split; auto. split; [lra|]. split; reflexivity. }
  destruct Q as (f & E6 & Hq). clear E5. cbn [apply] in E6. unfold deref at 1 in E6. unfold at_end in E6. cbn [cur dest] in E6. rewrite Nat.eqb_refl in E6.
  apply rbind_ok in E6 as ((q1 & w6) & E7 & E6). apply rbind_ok in E7 as ((x & w7) & Ex & E7). injection E7 as <- <-.
  unfold incr, at_end in E6. cbn [cur dest] in E6. rewrite app_length in E6. cbn [length] in E6.
  destruct (Nat.eqb_spec (length d) (length d + 1)); [lia|]. unfold deref, at_end in E6. cbn [cur dest] in E6. rewrite app_length in E6. cbn [length] in E6.
  destruct (Nat.eqb_spec (Datatypes.S (length d)) (length d + 1)); [|lia].
  apply rbind_ok in E6 as ((q2 & w8) & E8 & E6). apply rbind_ok in E8 as ((y & w9) & Ey & E8). injection E8 as <- <-. cbn [cur dest] in E6.
  rewrite <- app_assoc in E6. cbn [app] in E6. rewrite nth_error_app2, Nat.sub_diag in E6 by lia. cbn [nth_error of_opt rbind] in E6.
  rewrite nth_error_app2 in E6 by lia. replace (length d + 1 - length d) with 1 in E6 by lia. cbn [nth_error of_opt rbind] in E6.
  apply rbind_ok in E6 as ([[[x' y'] ch] w10] & Ef & E6). unfold store in E6. cbn [dest cur] in E6. rewrite set_last in E6. cbn [of_opt rbind dest cur] in E6.
  change (d ++ touch ch x' :: [y]) with (d ++ [touch ch x'] ++ [y]) in E6. rewrite app_assoc in E6.
  replace (length d + 1) with (length (d ++ [touch ch x'])) in E6 by (rewrite app_length; auto). rewrite set_last in E6. cbn [of_opt rbind] in E6. injection E6 as <- <-.
  rewrite <- app_assoc in E1. cbn [app] in E1. rewrite app_length in E1. cbn [length] in E1.
  unfold incr, at_end in E1. cbn [dest cur] in E1. rewrite !app_length in E1. cbn [length] in E1.
  destruct (Nat.eqb_spec (length d + 1) (length d + 2)); [lia|]. cbn [dest cur] in E1. rewrite !app_length in E1. cbn [length] in E1.
  destruct (Nat.eqb_spec (Datatypes.S (length d + 1)) (length d + 2)); [|lia]. cbn [dest cur] in E1. rewrite !app_length in E1. cbn [length] in E1.
  destruct (Nat.eqb_spec (Datatypes.S (length d + 1)) (length d + 2)); [|lia]. injection E1 as <- <-.
  specialize (Hq _ _ _ _ _ _ _ Ef). set (x1 := touch ch x') in *. set (y1 := touch ch y') in *.
  cbn [dest] in E2. rewrite app_length in E2. cbn [length] in E2. replace (length d + 2 - length d) with 2 in E2 by lia.
  (* the mutations *)
  assert (M : forall z wz z' c wz', prop_mon wheel [(r_flip o, bit_flip (p_bit o)); (r_onebit o, bits_flip 1); (r_kbit o, bits_flip (k_bit o))] z wz = Ok (z', c, wz') ->
    exists i wi wi', wheel [r_flip o; r_onebit o; r_kbit o] wi = Ok (i, wi') /\
    match i with
    | 0 => (0 < r_flip o)%Q /\ mon_result (bit_flip (p_bit o)) z (touch c z')
    | 1 => (0 < r_onebit o)%Q /\ mon_result (bits_flip 1) z (touch c z')
    | 2 => (0 < r_kbit o)%Q /\ mon_result (bits_flip (k_bit o)) z (touch c z')
    | _ => False
    end).
  { intros z wz z' c wz' Q. assert (N5 : non_negative [r_flip o; r_onebit o; r_kbit o]) by (intros f0 [<-|[<-|[<-|[]]]]; assumption).
    destruct (mon_of _ _ _ _ _ _ Hw Q N5) as (j & r2 & f2 & w11 & J & K & P & E). exists j, wz, w11. split; [exact J|].
    destruct j as [|[|[|j]]]; [| | |destruct j; discriminate]; injection K as <- <-; (split; [exact P|]); unfold mon_result; exists w11, z', c, wz'; repeat split; auto. }
  set (mut := prop_mon wheel _) in *.
  assert (Step : forall l z r wz q wz', (let! (b, w1) := flip (p_mut o) wz in if (b : bool) then apply source select flip wheel (MonGen mut) (Pop (l ++ z :: r) (length l)) w1 else Ok (Pop (l ++ z :: r) (length l), w1)) = Ok (q, wz') ->
    exists z', q = Pop (l ++ z' :: r) (length l) /\ mutated flip o z z').
  { intros l z r0 wz q wz' Q. apply rbind_ok in Q as ((b & w11) & Efl & Q). destruct b.
    - cbn [apply] in Q. unfold deref, at_end in Q. cbn [cur dest] in Q. rewrite app_length in Q. cbn [length] in Q. destruct (Nat.eqb_spec (length l) (length l + Datatypes.S (length r0))); [lia|].
      cbn [rbind] in Q. unfold current in Q. cbn [cur dest] in Q. rewrite nth_error_app2, Nat.sub_diag in Q by lia. cbn [nth_error of_opt rbind] in Q.
      apply rbind_ok in Q as ([[z' c] w12] & Em & Q). unfold store in Q. cbn [dest cur] in Q. rewrite set_last in Q. cbn [of_opt rbind] in Q. injection Q as <- <-.
      eexists. split; [reflexivity|]. right. split; [eauto|]. eapply M; eauto.
    - injection Q as <- <-. exists z. split; auto. left. eauto. }
  cbn [seq_loop] in E2.
  apply rbind_ok in E2 as ((b1 & w11) & F1 & E2). apply rbind_ok in E2 as ((p5 & w12) & F2 & E2).
  destruct (Step d x1 [y1] w10 p5 w12) as (x2 & -> & Mx); [rewrite F1; cbn [rbind]; destruct b1; exact F2|].
  unfold incr, at_end in E2. cbn [dest cur] in E2. rewrite !app_length in E2. cbn [length] in E2.
  destruct (Nat.eqb_spec (length d) (length d + 2)); [lia|]. cbn [dest cur] in E2. rewrite !app_length in E2. cbn [length] in E2.
  destruct (Nat.eqb_spec (Datatypes.S (length d)) (length d + 2)); [lia|].
  apply rbind_ok in E2 as ((b2 & w13) & F3 & E2). apply rbind_ok in E2 as ((p6 & w14) & F4 & E2).
  replace (d ++ [x2; y1]) with ((d ++ [x2]) ++ y1 :: []) in F4 by (rewrite <- app_assoc; reflexivity).
  replace (Datatypes.S (length d)) with (length (d ++ [x2])) in F4 by (rewrite app_length; cbn; lia).
  destruct (Step (d ++ [x2]) y1 [] w12 p6 w14) as (y2 & -> & My); [rewrite F3; cbn [rbind]; destruct b2; exact F4|].
  cbn [dest cur] in E2. rewrite !app_length in E2. cbn [length] in E2.
  destruct (Nat.eqb_spec (length d + 1) (length d + 1 + 1)); [lia|]. cbn [dest cur] in E2. rewrite !app_length in E2. cbn [length] in E2.
  destruct (Nat.eqb_spec (Datatypes.S (length d + 1)) (length d + 1 + 1)); [|lia]. injection E2 as <- <-.
  exists wb, i, w4, x, w7, y, w9, x1, y1, x2, y2. cbn [dest cur]. rewrite <- app_assoc, !app_length. cbn [app length].
  repeat split; auto; try lia.
Qed.
End Operator.

(** with the roulette of the generator: crossed over exactly when the number drawn is below the probability *)
Theorem C201_crossover_probability (o : op_options) (u : Q) : in_range o -> (0 <= u < 1)%Q ->
  (rng_roulette [p_cross o; 1 - p_cross o]%Q 0 u = Ok 0 <-> (u < p_cross o)%Q).
Proof.
  intros (A & _) U.
  assert (T : (total [p_cross o; 1 - p_cross o]%Q == 1)%Q) by (unfold total; cbn; ring).
  destruct (rng_roulette_full [p_cross o; 1 - p_cross o]%Q 0%Q u) as (_ & K); [intros f [<-|[<-|[]]]; lra|auto|rewrite T; reflexivity|left; reflexivity|].
  rewrite K, T. cbn. split; [intros (_ & B); lra|intros B; split; [lia|lra]].
Qed.
Example C201_crossover_probability_ex : rng_roulette [6#10; 1 - (6#10)]%Q 0 (59#100) = Ok 0 /\ rng_roulette [6#10; 1 - (6#10)]%Q 0 (6#10) = Ok 1.
Proof. split; reflexivity. Qed.

(** the roulette of the generator is such a roulette, whatever it draws *)
Example wheel_ok_ex : wheel_ok (W:=list Q) (fun rates w => match w with u :: r => if Qle_bool 0 u && negb (Qle_bool 1 u) then let! i := rng_roulette rates 0 u in Ok (i, r) else NoDraw | [] => NoDraw end).
Proof.
  intros rates [|u r] i w' Hn H; [discriminate|].
  destruct (Qle_bool 0 u && negb (Qle_bool 1 u)) eqn:E; [|discriminate].
  apply andb_true_iff in E as (U1 & U2). apply Qle_bool_iff in U1. apply negb_true_iff in U2.
  assert (U3 : (u < 1)%Q) by (apply Qnot_le_lt; intros C; apply Qle_bool_iff in C; congruence).
  apply rbind_ok in H as (j & E & H). injection H as <- <-.
  assert (P : forall i, i <= length rates -> (0 <= prefix rates i)%Q).
  { intros k Hk. rewrite <- (prefix_0 rates). apply prefix_mono; auto; lia. }
  destruct (Qlt_le_dec 0 (total rates)) as [T|T].
  - destruct (rng_roulette_spec rates 0 u (conj U1 U3) T (or_introl (Qeq_refl 0))) as (i & Ei & Hi & A & B). assert (i = j) by congruence. subst i.
    destruct (nth_error rates j) as [f|] eqn:Ef; [|apply nth_error_None in Ef; lia]. exists f. split; auto. rewrite (prefix_S _ _ _ Ef) in B. lra.
  - exfalso.
    assert (L : forall l k r, (forall f, In f l -> (f == 0)%Q) -> (r == 0)%Q -> rng_roulette_loop l k r = UB).
    { induction l as [|f l IH]; intros k r0 Z Er; cbn [rng_roulette_loop]; replace (Qle_bool 0 r0) with true by (symmetry; apply Qle_bool_iff; rewrite Er; lra); auto.
      apply IH; [intros; apply Z; right; auto|]. rewrite Er, (Z f) by (left; auto). ring. }
    unfold rng_roulette in E. replace (Qeq_bool 0 0) with true in E by reflexivity.
    assert (Z : (qsum rates == 0)%Q). { rewrite qsum_prefix. pose proof (P (length rates) (le_n _)). unfold total in *. lra. }
    rewrite L in E; [discriminate| |rewrite Z; ring].
    intros f Hf. apply In_nth_error in Hf as (k & Ek). assert (Hk : k < length rates) by (apply nth_error_Some; congruence).
    pose proof (P k ltac:(lia)). pose proof (prefix_mono rates Hn (Datatypes.S k) (length rates) ltac:(lia) (le_n _)) as M.
    rewrite (prefix_S _ _ _ Ek) in M. pose proof (Hn f (nth_error_In _ _ Ek)). unfold total in T. lra.
Qed.
(** each child of a small genetic algorithm on bits written as numbers *)
Definition ex_flip (q : Q) (w : list Q) : res (bool * list Q) := match w with u :: r => Ok (negb (Qle_bool q u), r) | [] => NoDraw end.
Definition ex_wheel (rates : list Q) (w : list Q) : res (nat * list Q) := match w with u :: r => let! i := rng_roulette rates 0 u in Ok (i, r) | [] => NoDraw end.
Definition ex_select (w : list Q) : res (indiv nat nat * list Q) := match w with u :: r => Ok (Ind (if Qle_bool (1#2) u then 10 else 20) (Some 5), r) | [] => NoDraw end.
Example C201_one_application_ex :
  (let! op := make_op (G:=nat) (F:=nat) (W:=list Q) (fun x y w => Ok (Ind (geno y) (fit x), Ind (geno x) (fit y), true, w)) (fun x y w => Throw) (fun x y w => Throw)
     (fun q x w => Ok (Ind (geno x + 1) (fit x), true, w)) (fun k x w => Throw) ex_wheel "SGA"%string (OpOptions (6#10) (1#10) 1 0 0 (1#100) 1 0 1 0) in
   apply [] ex_select ex_flip ex_wheel op (Pop [] 0) [0; 1#2; 3#4; 1#4; 1#3; 1#20; 1#3; 1#2]%Q) = Ok (Pop [Ind 21 None; Ind 10 None] 2, []).
Proof. reflexivity. Qed.
Example C201_operator_throws_ex : make_op (G:=nat) (F:=nat) (W:=nat) (fun x y w => Throw) (fun x y w => Throw) (fun x y w => Throw) (fun q x w => Throw) (fun k x w => Throw) (fun l w => Throw) "SGA"%string (OpOptions (11#10) (1#10) 1 0 0 (1#100) 1 0 1 0) = Throw.
Proof. reflexivity. Qed.
Print Assumptions C197_selection_or_throw.
Print Assumptions C197_valid_parameters.
Print Assumptions C197_tournament_size.
Print Assumptions C197_parameters_used.
Print Assumptions C197_replacement.
Print Assumptions C197_status_file.
Print Assumptions C198_replacement_size_refuted.
Print Assumptions C198_promise_refuted.
Print Assumptions C198_no_argument_refuted.
Print Assumptions C198_status_file_refuted.
Print Assumptions C198_nan_refuted.
Print Assumptions C198_best_retained_refuted.
Print Assumptions C198_no_rates_refuted.
Print Assumptions C199_initial_population.
Print Assumptions C199_fresh_individuals.
Print Assumptions C200_stopping.
Print Assumptions C200_throws.
Print Assumptions C200_generations.
Print Assumptions C201_reduction.
Print Assumptions C201_reduction_built.
Print Assumptions C201_reduction_rate.
Print Assumptions C201_operator_throws.
Print Assumptions C201_one_application.
Print Assumptions C201_crossover_probability.
