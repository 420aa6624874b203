(** C114: eoFastGA. C115: the foundry that assembles it. C116: containers of forges. C117: restarts.
    C118: what the forges do not do. *)
From Coq Require Import List Arith Bool Lia QArith.
From Verif Require Import Lib Outcome PopModel BreedModel BreedSpec AlgoModel AlgoSpec AlgoProofs BoundsModel FoundSpec FoundModel FoundProofs FoundForge.
From Coq Require Import List.
Import ListNotations.
Close Scope Q_scope.
Open Scope nat_scope.

(** ** C114 *)
Section FastGA.
Context {G F W : Type}.
Notation I := (indiv G F).
Variables (value : G -> F) (flip : Q -> W -> res (bool * W)) (peval : list I -> W -> res ((list I * W) + W)) (ops : operators G F W).
Hypothesis Hev : evaluates_all value peval.
Hypothesis Hsc : takes_members (pick (select_cross ops)).
Hypothesis Hsa : takes_members (pick (select_after ops)).
Hypothesis Hsm : takes_members (pick (select_mut ops)).
Hypothesis Hm : honest_mon (mutation ops).
Hypothesis Hq : honest_quad (crossover ops).
Hypothesis Hr : keeps_members (replace ops).
(** One generation: the replacement is called with exactly lambda offspring of the population, each with the
    fitness of its genotype. *)
Theorem C114_generation : forall lambda pop w p w', Forall (evaluated value) pop ->
  generation flip peval ops lambda pop w = Ok (inl (p, w')) ->
  exists off w1, length off = lambda /\ Forall (evaluated value) off /\
    Forall (fun x => offspring_of (crossover ops) (mutation ops) value pop (geno x)) off /\
    replace ops pop off w1 = Ok (p, w') /\ Forall (evaluated value) p.
Proof. exact (generation_ok value flip peval ops Hev Hsc Hsa Hsm Hm Hq Hr). Qed.
(** The run: lambda is the size given, or that of the population if it is 0; each population comes from the one
    before by such a generation, all of them are evaluated, the last one is the result; when the evaluation
    gives up, that is the population before the generation it interrupted. *)
Theorem C114_run : forall fuel size pop w p tr e w' lambda, Forall (evaluated value) pop ->
  fastga flip peval ops fuel size pop w = Ok (p, tr, e, w', lambda) ->
  lambda = (if size =? 0 then length pop else size) /\
  p = last tr pop /\ Forall (evaluated value) p /\ Forall (Forall (evaluated value)) tr /\ (e = false -> tr <> []) /\
  (forall k q, nth_error tr k = Some q -> exists off w1 w2, length off = lambda /\ Forall (evaluated value) off /\
     Forall (fun x => offspring_of (crossover ops) (mutation ops) value (nth k (pop :: tr) pop) (geno x)) off /\
     replace ops (nth k (pop :: tr) pop) off w1 = Ok (q, w2)).
Proof.
  intros fuel size pop w p tr e w' lambda Hp H. unfold fastga in H. apply rbind_ok in H as ([[[p1 tr1] e1] w1] & H1 & H). injection H as <- <- <- <- <-.
  destruct (loop_ok value flip peval ops Hev Hsc Hsa Hsm Hm Hq Hr _ _ _ _ _ _ _ _ Hp H1) as (-> & T & L & N).
  split; [reflexivity|]. split; [reflexivity|]. split; [|split; [exact T|split; [exact N|]]].
  - destruct tr1 as [|a l]; [exact Hp|]. rewrite Forall_forall in T. apply T.
    clear. revert a. induction l as [|b l IH]; intros a; [left; reflexivity|]. right. exact (IH b).
  - intros k q Hk. exact (linked_nth _ _ _ L k q pop Hk).
Qed.
End FastGA.
Print Assumptions C114_generation.
Print Assumptions C114_run.
(** numbers: crossing gives the sum and the first; mutation adds 1; the selectors draw an index *)
Notation num := (indiv nat nat).
Definition ex_flip (q : Q) (w : list nat) : res (bool * list nat) := match w with [] => NoDraw | d :: r => Ok (qltb (Z.of_nat d # 10) q, r) end.
Definition ex_selector : selector nat nat (list nat) := Selector (fun _ w => Ok w) (fun pop w => match w with [] => NoDraw | d :: r => let! x := of_opt (nth_error pop d) in Ok (x, r) end).
Definition ex_cross (x y : num) (w : list nat) : res (num * num * bool * list nat) := Ok (Ind (geno x + geno y) (fit x), Ind (geno x) (fit y), true, w).
Definition ex_mut (x : num) (w : list nat) : res (num * bool * list nat) := Ok (Ind (S (geno x)) (fit x), true, w).
Definition ex_replace (pop off : list num) (w : list nat) : res (list num * list nat) := Ok (firstn (length pop) (off ++ pop), w).
Definition ex_cont (pop : list num) (w : list nat) : res (bool * list nat) := match w with [] => NoDraw | d :: r => Ok (negb (d =? 0), r) end.
Definition ex_func (x : num) (w : list nat) : res (num * list nat) := Ok (Ind (geno x) (Some (10 * geno x)), w).
Definition ex_ops : operators nat nat (list nat) := Operators (1 # 2) ex_selector ex_cross ex_selector (1 # 2) ex_selector ex_mut ex_replace ex_cont.
Definition ex_pop : list num := [Ind 1 (Some 10); Ind 2 (Some 20); Ind 4 (Some 40)].
Example C114_parts : evaluates_all (fun g => 10 * g) (fun l w => Ok (inl (all_evaluated (fun g : nat => 10 * g) l, w : list nat))) /\
  takes_members (pick (select_cross ex_ops)) /\ honest_mon (mutation ex_ops) /\ honest_quad (crossover ex_ops) /\ keeps_members (replace ex_ops).
Proof.
  split; [|split; [|split; [|split]]].
  - intros l w l' w' H. injection H as <- <-. reflexivity.
  - intros pop [|d w] x w' H; [discriminate|]. cbn in H. apply rbind_ok in H as (y & H1 & H). injection H as <- <-. apply of_opt_ok in H1. eapply nth_error_In; eauto.
  - intros x w x' w' H. discriminate.
  - intros x y w x' y' w' H. discriminate.
  - intros pop off w p w' H. cbn in H. injection H as <- <-. intros x Hx. apply in_or_app. apply or_comm. apply in_app_or.
    rewrite <- (firstn_skipn (length pop) (off ++ pop)). apply in_or_app. left. exact Hx.
Qed.
(** two offspring: 1 crossed with 4, the second kept, mutated; 2 mutated *)
Example C114_ex : fastga ex_flip (fun l w => Ok (inl (all_evaluated (fun g : nat => 10 * g) l, w))) ex_ops 3 2 ex_pop [0; 0; 2; 1; 3; 9; 1; 0] =
  Ok ([Ind 2 (Some 20); Ind 3 (Some 30); Ind 1 (Some 10)], [[Ind 2 (Some 20); Ind 3 (Some 30); Ind 1 (Some 10)]], false, [], 2).
Proof. vm_compute. reflexivity. Qed.

(** ** C115 *)
Section Foundry.
Context {G F W : Type}.
Notation I := (indiv G F).
Variables (val : G -> F) (flip : Q -> W -> res (bool * W)) (func : I -> W -> res (I * W)) (sh : shelves G F W).
Hypothesis Hf : computes val func.
(** The algorithm that runs is eoFastGA on the selected operators, with the rates capped to their ranges; any
    other encoding is refused. *)
Theorem C115_selected : forall encs max_evals fuel pop w r, foundry_run flip func sh encs max_evals fuel pop w = Ok r ->
  exists ops c i1 i2 i3 m i5 i6 i7 i8 n rest,
    encs = [inr c; inl i1; inl i2; inl i3; inr m; inl i5; inl i6; inl i7; inl i8; inl n] ++ rest /\
    nth_error (cross_selectors sh) i1 = Some (select_cross ops) /\ nth_error (crossovers sh) i2 = Some (crossover ops) /\
    nth_error (after_selectors sh) i3 = Some (select_after ops) /\ nth_error (mut_selectors sh) i5 = Some (select_mut ops) /\
    nth_error (mutations sh) i6 = Some (mutation ops) /\ nth_error (replacements sh) i7 = Some (replace ops) /\
    nth_error (continuators sh) i8 = Some (cont ops) /\
    (fst (crates sh) <= snd (crates sh) -> capped (fst (crates sh)) (snd (crates sh)) c (crate ops))%Q /\
    (fst (mrates sh) <= snd (mrates sh) -> capped (fst (mrates sh)) (snd (mrates sh)) m (mrate ops))%Q /\
    exists size, (fst (sizes sh) <= n <= snd (sizes sh) -> size = n) /\
      fastga (fun q => aside (flip q)) (budget_eval func max_evals) (lift_ops ops) fuel size pop (0, w) = Ok r.
Proof.
  intros encs max_evals fuel pop w r H. unfold foundry_run in H. apply rbind_ok in H as ([ops size] & Ha & H). unfold assemble in Ha.
  apply rbind_ok in Ha as (c & H0 & Ha). apply value_ok in H0. apply rbind_ok in Ha as (sc & H1 & Ha). apply taken_ok in H1 as (i1 & E1 & T1).
  apply rbind_ok in Ha as (cx & H2 & Ha). apply taken_ok in H2 as (i2 & E2 & T2). apply rbind_ok in Ha as (sa & H3 & Ha). apply taken_ok in H3 as (i3 & E3 & T3).
  apply rbind_ok in Ha as (m & H4 & Ha). apply value_ok in H4. apply rbind_ok in Ha as (sm & H5 & Ha). apply taken_ok in H5 as (i5 & E5 & T5).
  apply rbind_ok in Ha as (mu & H6 & Ha). apply taken_ok in H6 as (i6 & E6 & T6). apply rbind_ok in Ha as (re & H7 & Ha). apply taken_ok in H7 as (i7 & E7 & T7).
  apply rbind_ok in Ha as (co & H8 & Ha). apply taken_ok in H8 as (i8 & E8 & T8). apply rbind_ok in Ha as (n & H9 & Ha). injection Ha as <- <-.
  unfold rank in H9. destruct (nth_error encs 9) as [[n9|q9]|] eqn:E9; try discriminate. injection H9 as ->.
  do 9 (destruct encs as [|? encs]; [discriminate|]). destruct encs as [|? rest]; [discriminate|]. cbn in *.
  repeat match goal with E : Some _ = Some _ |- _ => injection E as -> end.
  exists (Operators (scalar (fst (crates sh)) (snd (crates sh)) c) sc cx sa (scalar (fst (mrates sh)) (snd (mrates sh)) m) sm mu re co), c, i1, i2, i3, m, i5, i6, i7, i8, n, rest. split; [reflexivity|].
  do 7 (split; [assumption|]). split; [intros Hl; apply scalar_capped; exact Hl|]. split; [intros Hl; apply scalar_capped; exact Hl|].
  eexists. split; [|exact H]. intros Hn. lia.
Qed.
(** The budget: at most max_evals evaluations (one if that is 0), the run is cut exactly when they are all
    used, and the population left is evaluated: it is the last complete generation's. *)
Theorem C115_budget : forall encs max_evals fuel pop w p tr cut n w' lambda, Forall (evaluated val) pop ->
  (forall sel, In sel (cross_selectors sh ++ after_selectors sh ++ mut_selectors sh) -> takes_members (pick sel)) ->
  (forall f, In f (mutations sh) -> honest_mon f) -> (forall f, In f (crossovers sh) -> honest_quad f) -> (forall f, In f (replacements sh) -> keeps_members f) ->
  foundry_run flip func sh encs max_evals fuel pop w = Ok (p, tr, cut, (n, w'), lambda) ->
  n <= Nat.max 1 max_evals /\ (cut = true <-> n = Nat.max 1 max_evals) /\
  p = last tr pop /\ Forall (evaluated val) p /\ Forall (Forall (evaluated val)) tr.
Proof.
  intros encs max_evals fuel pop w p tr cut n w' lambda Hp Hs Hm Hq Hr H.
  destruct (C115_selected _ _ _ _ _ _ H) as (ops & c & i1 & i2 & i3 & m & i5 & i6 & i7 & i8 & n0 & rest & _ & T1 & T2 & T3 & T5 & T6 & T7 & T8 & _ & _ & size & _ & R).
  apply nth_error_In in T1, T2, T3, T5, T6, T7.
  assert (Hl : forall sel : selector G F W, takes_members (pick sel) -> takes_members (pick (lift_selector sel))).
  { intros sel Ht q s x s' E. cbn in E. apply aside_ok in E as [_ E]. exact (Ht _ _ _ _ E). }
  assert (X : p = last tr pop /\ Forall (evaluated val) p /\ Forall (Forall (evaluated val)) tr).
  { destruct (C114_run val (fun q => aside (flip q)) (budget_eval func max_evals) (lift_ops ops)) with (9 := R) as (_ & A & B & C & _); auto.
    - intros l s l' s' E. exact (peval_any val func Hf max_evals l s l' s' E).
    - apply Hl, Hs. apply in_or_app. auto.
    - apply Hl, Hs. apply in_or_app. right. apply in_or_app. auto.
    - apply Hl, Hs. apply in_or_app. right. apply in_or_app. auto.
    - intros x s x' s' E. cbn in E. apply aside_ok in E as [_ E]. exact (Hm _ T6 _ _ _ _ E).
    - intros x y s x' y' s' E. cbn in E. apply aside_ok in E as [_ E]. exact (Hq _ T2 _ _ _ _ _ _ E).
    - intros q off s q' s' E. cbn in E. apply aside_ok in E as [_ E]. exact (Hr _ T7 _ _ _ _ _ E). }
  unfold fastga in R. apply rbind_ok in R as ([[[p1 tr1] e1] w1] & R & E). injection E as -> -> -> -> _.
  apply (loop_cost val flip func Hf) in R; [|cbn [fst]; lia]. destruct R as (A & B & _). cbn [fst] in *. auto.
Qed.
(** If the variations always change what they are given, a generation costs at least lambda evaluations: the
    complete generations are fewer than the budget over lambda, and the run ends whatever the continuator. *)
Theorem C115_ends : forall encs max_evals fuel pop w r, pop <> [] ->
  (forall f, In f (mutations sh) -> changing_mon f) -> (forall f, In f (crossovers sh) -> changing_quad f) ->
  Nat.max 1 max_evals <= fuel ->
  foundry_run flip func sh encs max_evals fuel pop w = r ->
  foundry_run flip func sh encs max_evals (Nat.max 1 max_evals) pop w = r /\
  forall p tr cut n w' lambda, r = Ok (p, tr, cut, (n, w'), lambda) -> 0 < lambda /\ lambda * length tr <= n.
Proof.
  intros encs max_evals fuel pop w r Hp Hm Hq Hn H. unfold foundry_run in *.
  destruct (assemble sh encs) as [[ops size]| | |] eqn:Ha; cbn [rbind] in *; try (split; [exact H|intros; congruence]).
  assert (Cm : changing_mon (mutation ops) /\ changing_quad (crossover ops)).
  { unfold assemble in Ha. do 10 (apply rbind_ok in Ha as (? & ? & Ha)). injection Ha as <- _. cbn. split; [apply Hm|apply Hq];
    match goal with |- In ?y _ => match goal with H : taken _ _ _ = Ok y |- _ => apply taken_ok in H as (? & _ & H); eapply nth_error_In; exact H end end. }
  destruct Cm as [Cm Cq]. unfold fastga in *. set (lambda0 := if size =? 0 then length pop else size) in *.
  assert (L0 : lambda0 > 0). { unfold lambda0. destruct (size =? 0) eqn:E; [destruct pop; [congruence|cbn; lia]|apply Nat.eqb_neq in E; lia]. }
  rewrite (loop_fuel val flip func Hf max_evals ops lambda0 L0 Cm Cq (Nat.max 1 max_evals)) in H; [|cbn [fst]; lia|cbn [fst]; lia|exact Hn].
  split; [exact H|]. intros p tr cut n w' lambda E. rewrite E in H. apply rbind_ok in H as ([[[p1 tr1] e1] w1] & R & H). injection H as -> -> -> -> <-.
  apply (loop_cost val flip func Hf) in R; [|cbn [fst]; lia]. destruct R as (_ & _ & C). specialize (C Cm Cq). cbn [fst] in C. split; [exact L0|lia].
Qed.
End Foundry.
Print Assumptions C115_selected.
Print Assumptions C115_budget.
Print Assumptions C115_ends.
Definition ex_shelves : shelves nat nat (list nat) := Shelves (0 : Q, 1 : Q)%Q [ex_selector] [ex_cross] [ex_selector] (0 : Q, 1 : Q)%Q [ex_selector] [ex_mut; fun x w => Ok (x, false, w)] [ex_replace] [ex_cont] (0, 100).
Definition ex_encs : list encoding := [inr (1 # 2)%Q; inl 0; inl 0; inl 0; inr (1 # 2)%Q; inl 0; inl 0; inl 0; inl 0; inl 2].
(** 3 evaluations in the first generation; the fifth one, in the second generation, exhausts the budget of 5 *)
Example C115_ex : foundry_run ex_flip ex_func ex_shelves ex_encs 5 9 ex_pop [0; 0; 2; 1; 3; 9; 1; 1;   0; 0; 1] =
  Ok ([Ind 2 (Some 20); Ind 3 (Some 30); Ind 1 (Some 10)], [[Ind 2 (Some 20); Ind 3 (Some 30); Ind 1 (Some 10)]], true, (5, []), 2).
Proof. vm_compute. reflexivity. Qed.
Example C115_parts : computes (fun g => 10 * g) ex_func /\ (forall f, In f (crossovers ex_shelves) -> changing_quad f) /\ Forall (evaluated (fun g => 10 * g)) ex_pop.
Proof.
  split; [intros x w x' w' H; injection H as <- <-; reflexivity|]. split; [|repeat constructor].
  intros f [<-|[]] x y w x' y' b w' H. injection H as <- <- <- <-. reflexivity.
Qed.
(** an index that no operator has is refused *)
Example C115_refused : foundry_run ex_flip ex_func ex_shelves (set ex_encs 6 (inl 2)) 5 9 ex_pop [0; 0; 2; 1] = Throw.
Proof. vm_compute. reflexivity. Qed.

(** ** C116: a container of forges (eoForgeVector), empty at first, after any requests *)
Section Forges.
Context {T : Type}.
(** An index that was never added is refused. *)
Theorem C116_refused : forall b (rs : list (request T)) v i, do_calls (Vector b [] []) rs = Ok v ->
  nth_error (configured [] rs) i = None -> instantiate v i = Throw.
Proof.
  intros b rs v i H Hi. apply calls_configured in H. cbn in H. rewrite <- H, nth_error_map' in Hi. unfold instantiate.
  destruct (nth_error (forges v) i); [discriminate|reflexivity].
Qed.
(** Without the cache, and with it when nothing was instantiated there since the last set up, the operator is
    a new one, in the state its forge was last set up with. *)
Theorem C116_new_operator : forall b (rs : list (request T)) v i v' p, do_calls (Vector b [] []) rs = Ok v ->
  instantiate v i = Ok (v', p) ->
  (b = true \/ ~ In (Instantiate i) rs \/ exists rs1 t rs2, rs = rs1 ++ Setup i t :: rs2 /\ ~ In (Instantiate i) rs2) ->
  exists t, nth_error (configured [] rs) i = Some t /\ nth_error (heap v) p = None /\ nth_error (heap v') p = Some (Object true t).
Proof.
  intros b rs v i v' p H Hi Hn. assert (Hc := calls_configured _ _ _ H). cbn in Hc.
  assert (Hb : no_cache v = b) by exact (calls_cache _ _ _ H).
  assert (Hd : b = true \/ idle v i).
  { destruct Hn as [Hn|[Hn|(rs1 & t & rs2 & -> & Hn)]]; [auto|right|right].
    - apply (calls_idle i rs _ _) in H; auto. intros q (t & C). destruct i; discriminate.
    - apply calls_app in H as (v1 & _ & H). cbn [do_calls] in H. apply rbind_ok in H as (v2 & H2 & H). eapply calls_idle; eauto. eapply setup_idle; eauto. }
  apply instantiate_cases in Hi as (f & Hf & [(C & Hp & ->)|(_ & -> & ->)]).
  - exfalso. destruct Hd as [Hd|Hd]; [congruence|]. apply (Hd p). exists (initial f). destruct f; cbn in *; congruence.
  - exists (initial f). split; [rewrite <- Hc, nth_error_map', Hf; reflexivity|]. split; [apply nth_error_None; lia|].
    cbn [heap]. rewrite nth_error_app2 by (rewrite delete_length; lia). rewrite delete_length, Nat.sub_diag. reflexivity.
Qed.
(** Between the instantiation of an operator and the next set up of its forge (or, without the cache, the next
    instantiation there), the reference stays good, whatever is asked of the other forges; the operator changes
    only when it is used. *)
Theorem C116_reference_stays : forall b (rs1 rs2 : list (request T)) v i v1 p v2, do_calls (Vector b [] []) rs1 = Ok v ->
  instantiate v i = Ok (v1, p) -> do_calls v1 rs2 = Ok v2 -> (forall r, In r rs2 -> ~ renews i b r) ->
  (forall step, exists v3, use v2 p step = Ok v3) /\
  ((forall r, In r rs2 -> ~ uses p r) -> nth_error (heap v2) p = nth_error (heap v1) p) /\
  (b = false -> instantiate v2 i = Ok (v2, p)).
Proof.
  intros b rs1 rs2 v i v1 p v2 H1 Hi H2 Hr. assert (I0 := calls_inv _ _ _ (empty_inv b) H1). destruct (instantiate_inv _ _ _ _ I0 Hi) as [I1 Hh].
  assert (Hb : no_cache v1 = b).
  { rewrite <- (calls_cache _ _ _ H1 : no_cache v = b). apply (call_cache v (Instantiate i)). cbn [do_call]. rewrite Hi. reflexivity. }
  destruct (calls_frame i p rs2 v1 v2 I1 Hh H2) as [Hh2 Hu]; [rewrite Hb; exact Hr|].
  assert (I2 := calls_inv _ _ _ I1 H2). split; [|split; [exact Hu|]].
  - intros step. destruct (proj1 I2 _ _ Hh2) as (t & E). unfold use. rewrite E. cbn. eauto.
  - intros ->. unfold instantiate. destruct Hh2 as (t & E). rewrite E, (calls_cache _ _ _ H2), Hb. reflexivity.
Qed.
(** The destructor deletes every operator, and they are deleted at most once: a live one belongs to one forge. *)
Theorem C116_all_deleted : forall b (rs : list (request T)) v, do_calls (Vector b [] []) rs = Ok v ->
  (forall p o, nth_error (destroy v) p = Some o -> alive o = false) /\
  (forall i j f g p, nth_error (forges v) i = Some f -> nth_error (forges v) j = Some g -> inst f = Some p -> inst g = Some p -> i = j).
Proof.
  intros b rs v H. assert (I0 := calls_inv _ _ _ (empty_inv b) H). split.
  - intros p [al t] Ho. cbn. destruct al; [|reflexivity]. exfalso. apply (destroy_dead v I0 p). exists t. exact Ho.
  - intros i j f g p Hf Hg Ef Eg. apply (proj1 (proj2 I0) i j p); [exists (initial f); destruct f; cbn in *; congruence|exists (initial g); destruct g; cbn in *; congruence].
Qed.
(** Without the cache, instantiating again deletes the operator given before: its references must not be used. *)
Theorem C116_previous_is_deleted : forall (rs : list (request T)) v i v1 p v2 q step, do_calls (Vector true [] []) rs = Ok v ->
  instantiate v i = Ok (v1, p) -> instantiate v1 i = Ok (v2, q) -> q <> p /\ use v2 p step = UB.
Proof.
  intros rs v i v1 p v2 q step H H1 H2. assert (I0 := calls_inv _ _ _ (empty_inv true) H). destruct (instantiate_inv _ _ _ _ I0 H1) as [I1 Hh].
  assert (Hb : no_cache v1 = true).
  { rewrite <- (calls_cache _ _ _ H : no_cache v = true). apply (call_cache v (Instantiate i)). cbn [do_call]. rewrite H1. reflexivity. }
  destruct (proj1 I1 _ _ Hh) as (t & E). assert (Lp := nth_error_lt _ _ _ E).
  apply instantiate_cases in H2 as (f & Hf & [(C & _)|(_ & -> & ->)]); [congruence|]. split; [lia|].
  destruct Hh as (t' & Hh). rewrite Hh in Hf. injection Hf as <-. cbn [inst initial]. unfold use. cbn [heap].
  rewrite nth_error_app1 by (rewrite delete_length; exact Lp). cbn [delete]. rewrite E, nth_error_set_eq by exact Lp. reflexivity.
Qed.
End Forges.
Print Assumptions C116_refused.
Print Assumptions C116_new_operator.
Print Assumptions C116_reference_stays.
Print Assumptions C116_all_deleted.
Print Assumptions C116_previous_is_deleted.
(** two counters; the second set up again; cached *)
Definition ex_requests : list (request nat) := [FoundSpec.Add 5; FoundSpec.Add 7; Instantiate 1; Use 0 S; Setup 1 8; Instantiate 0; Use 1 S].
Example C116_ex : match do_calls (Vector false [] []) ex_requests with
  | Ok v => configured [] ex_requests = [5; 8] /\ instantiate v 0 = Ok (v, 1) /\ nth_error (heap v) 1 = Some (Object true 6) /\
            (exists v', instantiate v 1 = Ok (v', 2) /\ nth_error (heap v') 2 = Some (Object true 8)) /\ use v 0 S = UB /\ instantiate v 2 = Throw
  | _ => False end.
Proof. vm_compute. repeat split. eexists. split; reflexivity. Qed.
Example C116_ex_renewed : match do_calls (Vector true [] []) (ex_requests ++ [Instantiate 0]) with
  | Ok v => nth_error (heap v) 1 = Some (Object false 6) /\ nth_error (heap v) 2 = Some (Object true 5)
  | _ => False end.
Proof. vm_compute. auto. Qed.

(** ** C117 *)
Section Restarts.
Context {G F W : Type}.
Notation I := (indiv G F).
Variables (value : G -> F) (init : W -> res (I * W)) (peval : list I -> W -> res (list I * W)) (algo : list I -> W -> res (list I * W)) (cont : list I -> W -> res (bool * W)).
Hypothesis Hi : forall w x w', init w = Ok (x, w') -> right value x.
Hypothesis He : forall l w l' w', peval l w = Ok (l', w') -> l' = all_evaluated value l.
(** Each run of the algorithm gets a population entirely made by the initialiser and evaluated, of the given size
    or of the size the run before left; the result is that of the last run, the first after which the continuator
    says to stop. *)
Theorem C117_restarts : forall fuel size pop w p tr w', restart init peval algo cont fuel size pop w = Ok (p, tr, w') ->
  tr <> [] /\ p = last (map snd tr) pop /\ stops_at_first_no cont (map snd tr) /\
  forall k p0 p1, nth_error tr k = Some (p0, p1) ->
    length p0 = match size with Some n => n | None => length (nth k (pop :: map snd tr) pop) end /\
    Forall (fun x => evaluated value x /\ exists w1 y w2, init w1 = Ok (y, w2) /\ geno y = geno x) p0 /\
    exists w1 w2, algo p0 w1 = Ok (p1, w2).
Proof.
  intros fuel size pop w p tr w' H. destruct (restart_ok value init peval algo cont Hi He fuel size pop w p tr w' H) as (N & R & E & S).
  split; [exact N|]. split; [exact E|]. split; [exact S|]. clear - R. generalize pop at 2 as d. revert pop R.
  induction tr as [|[a b] tr IH]; intros pop R d k p0 p1 Hk; [destruct k; discriminate|]. destruct R as ((L & Fr) & A & R).
  destruct k as [|k]; cbn in Hk; [injection Hk as <- <-; auto|]. destruct (IH b R d k p0 p1 Hk) as (X & Y). split; [|exact Y]. rewrite X. reflexivity.
Qed.
End Restarts.
Print Assumptions C117_restarts.
(** individuals 0, 1, 2, ... ; the algorithm drops the first; three runs *)
Example C117_ex : restart (fun w => Ok (Ind w None, S w)) (fun l w => Ok (all_evaluated (fun g => 10 * g) l, w)) (fun p w => Ok (tl p, w)) (fun p w => Ok (1 <? length p, w)) 9 None [Ind 7 None; Ind 8 None; Ind 9 (Some 1)] 0 =
  Ok ([Ind 4 (Some 40)], [([Ind 0 (Some 0); Ind 1 (Some 10); Ind 2 (Some 20)], [Ind 1 (Some 10); Ind 2 (Some 20)]); ([Ind 3 (Some 30); Ind 4 (Some 40)], [Ind 4 (Some 40)])], 5).
Proof. vm_compute. reflexivity. Qed.

(** ** C118: documented or implied, but not so *)
(** instantiate_ptr with the cache gives a new operator each time, unless instantiate was called before; then it
    gives back nothing *)
Theorem C118_pointer_cache_refuted :
  (forall f : pforge, plain_set f = false -> let (f1, p1) := instantiate_ptr true false f in let (f2, p2) := instantiate_ptr true false f1 in p1 <> None /\ p2 <> None /\ p1 <> p2) /\
  (forall f : pforge, plain_set f = true -> shared f = None -> snd (instantiate_ptr true false f) = None).
Proof.
  split; intros [ps sh cr]; cbn.
  - intros ->. cbn. repeat split; try discriminate. intros C. injection C. lia.
  - intros -> ->. reflexivity.
Qed.
(** for an operator without argument it always gives an empty pointer *)
Theorem C118_pointer_without_argument_refuted : forall f : pforge, snd (instantiate_ptr false true f) = None.
Proof. intros [ps sh cr]. reflexivity. Qed.
(** adding a second operator under the same name to an eoForgeMap is silently ignored *)
Theorem C118_second_name_refuted : forall (T : Type) (m : list (nat * T)) name t u, map_instantiate m name = Ok t -> map_instantiate (map_add m name u) name = Ok t.
Proof.
  intros T m name t u H. unfold map_instantiate, map_add in *. destruct (existsb (fun e => fst e =? name) m) eqn:E; [exact H|].
  destruct (find (fun e => fst e =? name) m) as [e|] eqn:Ef; [|discriminate]. apply find_some in Ef as [Hin He].
  assert (C : existsb (fun e => fst e =? name) m = true) by (apply existsb_exists; eauto). congruence.
Qed.
(** instantiate_from accepts an index with a fractional part and truncates it *)
Theorem C118_fractional_index_refuted : exists index : Q, ~ (exists n : nat, index == inject_Z (Z.of_nat n))%Q /\ from_index index = 2.
Proof.
  exists (5 # 2)%Q. split; [|reflexivity]. intros (n & H). unfold Qeq in H. cbn in H. lia.
Qed.
(** eoFastGA constructed with size 0 "sets lambda to the pop size" at its first call only: on a second, larger
    population the same object still makes as many offspring as the first population had members *)
Theorem C118_lambda_sticks_refuted : forall (G F W : Type) flip peval (ops : operators G F W) fuel fuel' pop pop' w w' p tr e w1 lambda p' tr' e' w1' lambda',
  pop <> [] ->
  fastga flip peval ops fuel 0 pop w = Ok (p, tr, e, w1, lambda) -> fastga flip peval ops fuel' lambda pop' w' = Ok (p', tr', e', w1', lambda') ->
  lambda' = length pop.
Proof.
  intros G F W flip peval ops fuel fuel' pop pop' w w' p tr e w1 lambda p' tr' e' w1' lambda' N H H'. unfold fastga in *.
  apply rbind_ok in H as ([[[a b] c] d] & _ & H). injection H as <- <- <- <- <-. cbn [Nat.eqb] in H'.
  destruct (length pop =? 0) eqn:E; [apply Nat.eqb_eq in E; destruct pop; [congruence|discriminate]|].
  apply rbind_ok in H' as ([[[a' b'] c'] d'] & _ & H'). injection H' as _ _ _ _ <-. reflexivity.
Qed.
Print Assumptions C118_pointer_cache_refuted.
Print Assumptions C118_pointer_without_argument_refuted.
Print Assumptions C118_second_name_refuted.
Print Assumptions C118_fractional_index_refuted.
Print Assumptions C118_lambda_sticks_refuted.
