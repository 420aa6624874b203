(** Properties C23-C25: evolution runs, stopping criteria, evaluation accounting. *)
From Coq Require Import List Arith Bool QArith Lia.
From Verif Require Import Lib Outcome OrderSpec OrderLemmas PopModel PopOps BreedModel BreedSpec AlgoModel AlgoSpec AlgoProofs.
Import ListNotations.
Close Scope Q_scope.
Open Scope nat_scope.

(** A concrete setting: genotypes and fitnesses are numbers, the world counts generations. *)
Definition ex_value (g : nat) : nat := g mod 7.
Definition ex_eval (x : indiv nat nat) (w : nat) : res (indiv nat nat * nat) := Ok (Ind (geno x) (Some (ex_value (geno x))), w).
Definition ex_breed (pop : list (indiv nat nat)) (w : nat) : res (list (indiv nat nat) * nat) :=
  Ok (map (fun x => Ind (geno x + 2) None) pop, w).
Definition ex_replace (par off : list (indiv nat nat)) (w : nat) : res (list (indiv nat nat) * nat) := Ok (firstn (length par) off, w).
Definition ex_cont (pop : list (indiv nat nat)) (w : nat) : res (bool * nat) := let (b, w') := gen_continue 3 w in Ok (b, w').
Definition ex_pop : list (indiv nat nat) := [Ind 1 None; Ind 4 (Some 4)].

(** C23 — eoEasyEA: whatever the components, as long as the evaluator evaluates, the
    breeder hands out no wrong fitness and the replacement invents nobody *)
Theorem C23_easy_ea_run :
  forall (G F W : Type) (value : G -> F) pop_eval breed replace cont fuel (pop : list (indiv G F)) (w : W) r tr w',
  pop_evaluates value pop_eval ->
  (forall pop w off w', Forall (right value) pop -> breed pop w = Ok (off, w') -> Forall (right value) off) ->
  (forall par off w par' w', replace par off w = Ok (par', w') -> incl par' (par ++ off)) ->
  Forall (right value) pop ->
  easy_ea pop_eval breed replace cont fuel pop w = Ok (r, tr, w') ->
  tr <> [] /\ last tr [] = r /\ Forall (fun p => length p = length pop /\ Forall (evaluated value) p) tr /\
  stops_at_first_no cont tr.
Proof. intros. eapply easy_ea_spec; eauto. Qed.
Print Assumptions C23_easy_ea_run.
Example C23_run_ex :
  pop_evaluates ex_value (pop_loop_eval ex_eval) /\ Forall (right ex_value) ex_pop /\
  easy_ea (pop_loop_eval ex_eval) ex_breed ex_replace ex_cont 10 ex_pop 0 =
    Ok ([Ind 7 (Some 0); Ind 10 (Some 3)],
        [[Ind 3 (Some 3); Ind 6 (Some 6)]; [Ind 5 (Some 5); Ind 8 (Some 1)]; [Ind 7 (Some 0); Ind 10 (Some 3)]], 3).
Proof.
  split; [|split; [|reflexivity]].
  - apply pop_loop_eval_ok. intros x w x' w' H. inversion H; subst. auto.
  - constructor; [left; reflexivity|constructor; [right; reflexivity|constructor]].
Qed.

(** the evaluators of the library qualify *)
Theorem C23_library_evaluators :
  forall (G F W : Type) (value : G -> F) (eval : indiv G F -> W -> res (indiv G F * W)), evaluates value eval ->
  pop_evaluates value (pop_loop_eval eval) /\ pop_evaluates value (time_varying_eval eval).
Proof. intros. split; [apply pop_loop_eval_ok|apply time_varying_eval_ok]; auto. Qed.
Print Assumptions C23_library_evaluators.

(** eoGenContinue(n) gives exactly max(1,n) generations, and the run ends *)
Theorem C23_generations :
  forall (G F W : Type) pop_eval breed replace cont (gen : W -> nat) total fuel (pop : list (indiv G F)) (w : W) r tr w',
  (forall p o w p' o' w', pop_eval p o w = Ok (p', o', w') -> gen w' = gen w) ->
  (forall p w o w', breed p w = Ok (o, w') -> gen w' = gen w) ->
  (forall p o w p' w', replace p o w = Ok (p', w') -> gen w' = gen w) ->
  (forall p w b w', cont p w = Ok (b, w') -> (b, gen w') = gen_continue total (gen w)) ->
  easy_ea pop_eval breed replace cont fuel pop w = Ok (r, tr, w') -> length tr = Nat.max 1 (total - gen w).
Proof. intros. eapply easy_ea_gens; eauto. Qed.
Print Assumptions C23_generations.
Theorem C23_run_ends :
  forall (G F W : Type) pop_eval breed replace cont (gen : W -> nat) total fuel (pop : list (indiv G F)) (w : W),
  (forall p o w p' o' w', pop_eval p o w = Ok (p', o', w') -> gen w' = gen w /\ length p' = length p) ->
  (forall p w o w', breed p w = Ok (o, w') -> gen w' = gen w) ->
  (forall p o w p' w', replace p o w = Ok (p', w') -> gen w' = gen w) ->
  (forall p w b w', cont p w = Ok (b, w') -> (b, gen w') = gen_continue total (gen w)) ->
  (forall p o w, exists p' o' w', pop_eval p o w = Ok (p', o', w')) ->
  (forall p w, exists o w', breed p w = Ok (o, w')) ->
  (forall p o w, exists p' w', replace p o w = Ok (p', w') /\ length p' = length p) ->
  (forall p w, exists b w', cont p w = Ok (b, w')) ->
  Nat.max 0 (total - gen w) < fuel ->
  exists r tr w', easy_ea pop_eval breed replace cont fuel pop w = Ok (r, tr, w') /\
    length tr = Nat.max 1 (total - gen w).
Proof.
  intros G F W pop_eval breed replace cont gen total fuel pop w H1 H2 H3 H4 H5 H6 H7 H8 H9.
  eapply easy_ea_ends; eauto; try lia; intros; edestruct H1; eauto.
Qed.
Print Assumptions C23_run_ends.
Example C23_ends_ex :
  (forall p w b w', ex_cont p w = Ok (b, w') -> (b, w') = gen_continue 3 w) /\
  (forall p w, exists b w', ex_cont p w = Ok (b, w')).
Proof. split; intros; unfold ex_cont, gen_continue in *; [congruence|eauto]. Qed.

(** with a replacement that never loses the best parent, the best never gets worse, at
    any two points of the run *)
Theorem C23_elitist_run_monotone :
  forall (G F W : Type) pop_eval breed replace cont (ltb : indiv G F -> indiv G F -> bool) fuel (pop : list (indiv G F)) (w : W) r tr w',
  strict_weak_order ltb ->
  (forall par off w par' off' w', pop_eval par off w = Ok (par', off', w') -> par' = par) ->
  (forall par off w par' w', replace par off w = Ok (par', w') -> dominates_best ltb par par') ->
  ea_loop pop_eval breed replace cont fuel pop w = Ok (r, tr, w') ->
  forall i j p q, i <= j -> nth_error (pop :: tr) i = Some p -> nth_error (pop :: tr) j = Some q -> dominates_best ltb p q.
Proof. intros. eapply ea_loop_monotone; eauto. Qed.
Print Assumptions C23_elitist_run_monotone.
Example C23_monotone_ex :
  (forall par (off : list (indiv nat nat)) (w : nat) par' w', Ok (par, w) = Ok (par', w') ->
     dominates_best (fun a b : indiv nat nat => geno a <? geno b) par par') /\
  ea_loop (pop_loop_eval ex_eval) ex_breed (fun par off w => Ok (par, w)) ex_cont 5 ex_pop 1 = Ok (ex_pop, [ex_pop; ex_pop], 3).
Proof.
  split; [|reflexivity]. intros par off w par' w' H. inversion H; subst. intros x Hx. exists x. split; auto. apply Nat.ltb_irrefl.
Qed.

(** eoSGA: same guarantees once the population has gone through one generation *)
Theorem C23_sga_run :
  forall (G F W : Type) (value : G -> F) select flip cross crate mut mrate eval cont fuel (pop : list (indiv G F)) (w : W) r tr w',
  evaluates value eval -> honest_quad cross -> honest_mon mut ->
  (forall pop w off w', select pop w = Ok (off, w') -> incl off pop /\ length off = length pop) ->
  Forall (right value) pop ->
  sga_loop select flip cross crate mut mrate eval cont fuel pop w = Ok (r, tr, w') ->
  tr <> [] /\ last tr [] = r /\ Forall (fun p => length p = length pop /\ Forall (evaluated value) p) tr /\
  stops_at_first_no cont tr.
Proof. intros G F W value select flip cross crate mut mrate eval cont fuel pop w r tr w' H1 H2 H3 H4 H5 H. eapply sga_loop_spec; eauto. Qed.
Print Assumptions C23_sga_run.
Example C23_sga_ex :
  sga_loop (fun p w => Ok (rev p, w)) (fun q w => Ok (true, w)) (fun x y w => Ok (y, x, true, w)) 1%Q
    (fun x w => Ok (Ind (geno x + 3) (fit x), true, w)) 1%Q ex_eval ex_cont 5 ex_pop 1 =
  Ok ([Ind 7 (Some 0); Ind 10 (Some 3)], [[Ind 4 (Some 4); Ind 7 (Some 0)]; [Ind 7 (Some 0); Ind 10 (Some 3)]], 3).
Proof. reflexivity. Qed.

(** C24 — stopping criteria *)
Theorem C24_gen_continue :
  forall total k this i, i < k -> nth_error (answers (gen_continue total) k this) i = Some (this + S i <? total).
Proof. exact gen_continue_spec. Qed.
Print Assumptions C24_gen_continue.
Example C24_gen_ex : answers (gen_continue 3) 5 0 = [true; true; false; false; false].
Proof. reflexivity. Qed.

Theorem C24_steady_fit :
  forall F (ltb : F -> F -> bool) nth_el, strict_weak_order ltb -> std_nth_ok nth_el ->
  forall minGens steadyGens pops bs st' b,
  steady_run F ltb nth_el minGens steadyGens (steady_new F) pops = Ok (bs, st') ->
  (forall j p, nth_error pops j = Some p -> is_best ltb p (b (S j))) ->
  length bs = length pops /\
  forall j v, nth_error bs j = Some v -> (v = false <-> stagnant ltb minGens steadyGens b (S j)).
Proof.
  intros F ltb nth_el Hs Hn mg sg pops bs st' b H Hb. exact (steady_run_spec F ltb nth_el Hs Hn mg sg pops bs st' b H Hb).
Qed.
Print Assumptions C24_steady_fit.
Example C24_steady_ex :
  match steady_run nat Nat.ltb the_nth 2 1 (steady_new nat) [[9];[1];[3;2];[4];[4];[0;1];[5];[5];[5]] with
  | Ok (bs, _) => bs = [true;true;true;true;true;false;true;true;false] | _ => False end.
Proof. reflexivity. Qed.
(** an eoSteadyFitContinue resumed past its minimum reads uninitialised memory (finding) *)
Theorem C24_steady_resumed_outside :
  forall F (ltb : F -> F -> bool) nth_el, strict_weak_order ltb -> std_nth_ok nth_el ->
  forall minGens steadyGens current pop, minGens < current -> pop <> [] ->
  steady_continue F ltb nth_el minGens steadyGens (steady_resume F minGens current) pop = UB.
Proof.
  intros F ltb nth_el Hs Hn mg sg cur pop Hc Hp.
  unfold steady_continue, steady_resume. cbn [sf_gen sf_steady sf_mem].
  destruct (nth_element_fitness_spec F ltb nth_el Hs Hn 0 pop) as (v & E & _);
    [destruct pop; [congruence|apply Nat.lt_0_succ]|].
  rewrite E. cbn [rbind]. apply Nat.ltb_lt in Hc. rewrite Hc. reflexivity.
Qed.
Print Assumptions C24_steady_resumed_outside.

Theorem C24_fit_continue :
  forall F (ltb : F -> F -> bool), strict_weak_order ltb -> forall optimum pop b,
  fit_continue F ltb optimum pop = Ok b -> (b = false <-> exists x, In x pop /\ ltb x optimum = false).
Proof. intros F ltb Hs optimum pop b H. exact (fit_continue_spec F ltb Hs optimum pop b H). Qed.
Print Assumptions C24_fit_continue.
Example C24_fit_ex : fit_continue nat Nat.ltb 7 [3;7;1] = Ok false /\ fit_continue nat Nat.ltb 8 [3;7;1] = Ok true.
Proof. split; reflexivity. Qed.

Theorem C24_periodic :
  forall period k, 0 < period -> forall c b c', periodic_continue period (c + k) = Ok (b, c') ->
  c' = c + S k /\ (b = false <-> (c + S k) mod period = 0).
Proof. exact periodic_iter. Qed.
Print Assumptions C24_periodic.
Example C24_periodic_ex : periodic_continue 3 (0 + 2) = Ok (false, 3) /\ periodic_continue 3 (0 + 1) = Ok (true, 2).
Proof. split; reflexivity. Qed.

(** a combined criterion asks its members in order up to the first that stops *)
Theorem C24_combined :
  forall (P S : Type) (cs : list (P -> S -> res (bool * S))) pop s b s',
  combined_continue cs pop s = Ok (b, s') ->
  exists n ss, n <= length cs /\ length ss = Datatypes.S n /\ nth_error ss 0 = Some s /\ nth_error ss n = Some s' /\
    (b = true -> n = length cs) /\ (b = false -> 0 < n) /\
    forall i c si si', i < n -> nth_error cs i = Some c -> nth_error ss i = Some si -> nth_error ss (Datatypes.S i) = Some si' ->
      c pop si = Ok (if (Datatypes.S i =? n) then b else true, si').
Proof. intros P S cs pop s b s' H. exact (combined_spec cs pop s b s' H). Qed.
Print Assumptions C24_combined.
Example C24_combined_ex :
  combined_continue [(fun (_ : unit) g => let (b, g') := gen_continue 9 g in Ok (b, g'));
                     (fun _ g => Ok (g <? 3, g * 10)); (fun _ g => Ok (true, 0))] tt 2 = Ok (false, 30).
Proof. reflexivity. Qed.

(** C25 — evaluation accounting *)
Theorem C25_counter :
  forall (G F W : Type) (value : G -> F) (func : indiv G F -> W -> res (indiv G F * W)) pop s pop' s',
  computes value func ->
  apply_eval (W := nat * W) (counter_eval func) pop s = Ok (pop', s') ->
  fst s' = fst s + n_unev pop /\ pop' = all_evaluated value pop.
Proof.
  intros G F W value func pop s pop' s' Hc H.
  split; [exact (counter_apply func pop s pop' s' H)|exact (counter_values value func pop Hc s pop' s' H)].
Qed.
Print Assumptions C25_counter.
Example C25_counter_ex :
  apply_eval (W := nat * nat) (counter_eval ex_eval) (ex_pop ++ ex_pop ++ [Ind 9 None]) (5, 0) =
  Ok ([Ind 1 (Some 1); Ind 4 (Some 4); Ind 1 (Some 1); Ind 4 (Some 4); Ind 9 (Some 2)], (8, 0)).
Proof. reflexivity. Qed.
(** the throwing counter: a budget of [threshold] evaluations is never exceeded; the
    exception comes with the evaluation that exhausts it, no earlier and no later, and
    leaves everybody up to that individual evaluated and the rest untouched *)
Theorem C25_throwing_counter :
  forall (G F W : Type) (value : G -> F) (func : indiv G F -> W -> res (indiv G F * W)) threshold pop s r,
  computes value func -> fst s < threshold ->
  apply_throw func threshold pop s = Ok r ->
  match r with
  | inl (pop', s') => fst s' = fst s + n_unev pop /\ fst s' < threshold /\ pop' = all_evaluated value pop
  | inr (pop', s') => fst s' = threshold /\ threshold <= fst s + n_unev pop /\
      exists l1 x l2, pop = l1 ++ x :: l2 /\ fit x = None /\ fst s + n_unev l1 + 1 = threshold /\
        pop' = all_evaluated value (l1 ++ [x]) ++ l2
  end.
Proof. intros G F W value func threshold pop s r Hc Hs H. exact (throw_apply value func threshold pop Hc s r Hs H). Qed.
Print Assumptions C25_throwing_counter.
Example C25_throw_ex :
  apply_throw ex_eval 7 (ex_pop ++ ex_pop ++ [Ind 9 None]) (5, 0) =
  Ok (inr ([Ind 1 (Some 1); Ind 4 (Some 4); Ind 1 (Some 1); Ind 4 (Some 4); Ind 9 None], (7, 0))).
Proof. reflexivity. Qed.
(** the best-keeper remembers the first of the best individuals it evaluated *)
Theorem C25_keep_best :
  forall (G F W : Type) (ltb : F -> F -> bool) (func : indiv G F -> W -> res (indiv G F * W)) xs kept fl w ys s',
  strict_weak_order ltb -> fit kept = None -> xs <> [] ->
  keep_all ltb func xs (kept, fl, w) = Ok (ys, s') -> first_best ltb ys (fst (fst s')).
Proof.
  intros G F W ltb func xs kept fl w ys s' Hs Hk Hne H.
  exact (keep_all_spec ltb Hs func xs [] (kept, fl, w) ys s' (or_introl (conj Hk eq_refl)) H (or_introl Hne)).
Qed.
Print Assumptions C25_keep_best.
Example C25_keep_ex :
  keep_all Nat.ltb ex_eval [Ind 3 None; Ind 13 None; Ind 6 None; Ind 2 None] (Ind 0 None, false, 0) =
  Ok ([Ind 3 (Some 3); Ind 13 (Some 6); Ind 6 (Some 6); Ind 2 (Some 2)], (Ind 13 (Some 6), false, 0)).
Proof. reflexivity. Qed.

(** eoEvalContinue reads that counter: after evaluating a population it stops exactly when
    the individuals that needed an evaluation brought the total to its limit *)
Theorem C24_eval_continue :
  forall (G F W : Type) (func : indiv G F -> W -> res (indiv G F * W)) pop s pop' s' total,
  apply_eval (W := nat * W) (counter_eval func) pop s = Ok (pop', s') ->
  (eval_continue total (fst s') = false <-> total <= fst s + n_unev pop).
Proof.
  intros G F W func pop s pop' s' total H. rewrite <- (counter_apply func pop s pop' s' H).
  unfold eval_continue. rewrite negb_false_iff. apply Nat.leb_le.
Qed.
Print Assumptions C24_eval_continue.
Example C24_eval_ex :
  match apply_eval (W := nat * nat) (counter_eval ex_eval) (ex_pop ++ ex_pop ++ [Ind 9 None]) (5, 0) with
  | Ok (_, s') => eval_continue 8 (fst s') = false /\ eval_continue 9 (fst s') = true | _ => False end.
Proof. split; reflexivity. Qed.
