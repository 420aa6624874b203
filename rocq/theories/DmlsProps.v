(** Dominance-based multiobjective local searches: C111, C112, C113. *)
From Coq Require Import List Bool QArith Arith Lia Lqa Permutation.
From Verif Require Import Lib Outcome NeighModel NeighProofs ParetoModel ParetoSpec ParetoProofs ArchModel ArchSpec DmlsSpec DmlsModel DmlsProofs DmlsEnd.
Import ListNotations.
Close Scope Q_scope.
Open Scope nat_scope.

Section Searches.
Variables G K S : Type.
Variable dirs : list bool.
Variable has : G -> bool.
Variable nh : G -> iterator S K.
Variable move : K -> G -> G.
Variable eval : G -> K -> list Q.
Variable evaluate : G -> list Q.
Variable keys : G -> list K.
Variable good : S -> Prop.
Variable shuf : nat -> list nat -> list nat.
Variable C : Type.
Notation explored := (res (list (sol G) * bool * S * list nat)).
(** the four neighborhood explorers *)
Inductive explorer : (sol G -> S -> list nat -> explored) -> Prop :=
| by_exhaustive fuel : explorer (exhaustive G K S has nh move eval fuel)
| by_first_improving fuel : explorer (first_improving G K S dirs has nh move eval fuel)
| by_no_desimproving fuel : explorer (no_desimproving G K S dirs has nh move eval fuel)
| by_simple_sub number : explorer (simple_sub G K S has nh move eval number).
Inductive improving_explorer (fuel : nat) : (sol G -> S -> list nat -> explored) -> Prop :=
| exhaustively : improving_explorer fuel (exhaustive G K S has nh move eval fuel)
| until_improving : improving_explorer fuel (first_improving G K S dirs has nh move eval fuel).
Inductive selector : (list (sol G) -> list nat -> res (list nat * list nat)) -> Prop :=
| all_unvisited : selector (unvisited G)
| some_unvisited number : 1 <= number -> selector (number_unvisited G shuf number).
(** an evaluated solution nobody has visited *)
Definition new_solution (x : sol G) : Prop := vec x = evaluate (geno x) /\ flag x = 0.

(** the states of a search whose archive was filled by earlier runs only, with the solutions
    these runs started from; the continuator and the generator may have been changed in between *)
Inductive history explore replace select (continuator : C -> list (sol G) -> bool * C) : list G -> dmls_state G S C -> Prop :=
| fresh s c ds : good s -> history explore replace select continuator [] (State [] s c ds)
| ran starts st c ds fuel pop st' : history explore replace select continuator starts st -> Forall new_solution pop ->
    dmls G S dirs explore replace select C continuator fuel pop (State (arch st) (nstate st) c ds) = Ok st' ->
    history explore replace select continuator (starts ++ map geno pop) st'.

Hypothesis eval_right : forall g k, eval g k = evaluate (move k g).
Hypothesis lengths : forall g, length (evaluate g) = length dirs.
Hypothesis nh_ok : forall g, has g = true -> enumerates good (nh g) (keys g).
Notation settled := (settled G K dirs move evaluate keys).
Lemma explorer_all explore : explorer explore -> explorer_ok G K S dirs move eval evaluate keys good explore.
Proof.
  intros [fuel|fuel|fuel|number]; [apply exhaustive_ok|apply (first_improving_both G K S dirs has nh move eval evaluate keys good)|apply no_desimproving_ok|apply simple_sub_ok]; auto.
Qed.
Lemma descends_more a b g : descends G K move a g -> incl a b -> descends G K move b g.
Proof. induction 1; intros Hi; [apply is_start; auto|apply is_moved; auto]. Qed.
Lemma settled_more a b l : settled a l -> incl a b -> settled b l.
Proof. intros (H1 & H2 & H3) Hi. split; auto. split; auto. intros x Hx. destruct (H2 x Hx) as (A & B & D). split; auto. split; auto. eapply descends_more; eauto. Qed.
Lemma settled_nil : settled [] [].
Proof. split; [apply ArchReal.antichain_nil|]. split; intros x []. Qed.
Section One.
Variable explore : sol G -> S -> list nat -> explored.
Hypothesis He : explorer explore.
Variable replace : bool.
Variable select : list (sol G) -> list nat -> res (list nat * list nat).
Variable continuator : C -> list (sol G) -> bool * C.
Notation history := (history explore replace select continuator).
Notation dmls := (dmls G S dirs explore replace select C continuator).
Notation dmls_loop := (dmls_loop G S dirs explore replace select C continuator).
Notation cov l v := (exists m : sol G, In m l /\ (dominates dirs (vec m) v \/ equal_vectors v (vec m))).
Lemma loop_ends starts : forall fuel st st', settled starts (arch st) -> good (nstate st) -> dmls_loop fuel st = Ok st' ->
  settled starts (arch st') /\ good (nstate st') /\ (forall v, length v = length dirs -> cov (arch st) v -> cov (arch st') v) /\
  exists c, natural_continue G (arch st') = false \/ fst (continuator c (arch st')) = false.
Proof.
  induction fuel as [|fuel IH]; intros st st' Hs Hg E; cbn [DmlsModel.dmls_loop] in E; [discriminate|]. apply rbind_ok in E as ([st1 go] & E1 & E).
  destruct (turn_settled G K S dirs move eval evaluate keys good eval_right lengths explore (explorer_all _ He) replace select C continuator starts st st1 go Hs Hg E1) as (H1 & H2 & H3).
  assert (Hc : forall v, length v = length dirs -> cov (arch st) v -> cov (arch st1) v).
  { intros v Hv Hcov. unfold dmls_turn in E1. apply rbind_ok in E1 as ([sel ds] & E0 & E1). apply rbind_ok in E1 as ([[[a1 new] s1] ds1] & Ee & E1). apply rbind_ok in E1 as ([a2 b] & E2 & E1).
    destruct (explored_settled G K S dirs move eval evaluate keys good eval_right lengths explore (explorer_all _ He) replace starts (arch st) sel (nstate st) ds a1 new s1 ds1 Hs Hg Ee) as (a2' & b' & E2' & S2 & _ & Hup & F & _). assert (a2' = a2) as -> by congruence.
    destruct (continuator (cstate st) a2) as [go' c]. assert (st1 = State a2 s1 c ds1) as -> by congruence. cbn [arch]. destruct (cov_flags G dirs _ _ v F Hcov) as (m & Hm & Hl). destruct (Hup m (in_or_app _ _ _ (or_introl Hm))) as (m' & Hm' & Hl'). exists m'. split; auto.
    apply (le_trans dirs v (vec m)); auto; [|rewrite (proj1 (proj1 (proj2 S2) m' Hm')); auto].
    apply In_nth_error in Hm as (i & Hi). destruct (Forall2_at' _ _ _ F i m Hi) as (x & Hx & (_ & B & _)). rewrite B. rewrite (proj1 (proj1 (proj2 Hs) x (nth_error_In _ _ Hx))). auto. }
  destruct go.
  - destruct (IH st1 st' H1 H2 E) as (A & B & D & F). exact (conj A (conj B (conj (fun v Hv Hx => D v Hv (Hc v Hv Hx)) F))).
  - assert (st' = st1) as -> by congruence. split; auto. split; auto. split; auto. exists (cstate st). apply H3. auto.
Qed.
Lemma run_ends starts fuel pop st st' : settled starts (arch st) -> good (nstate st) -> Forall new_solution pop -> dmls fuel pop st = Ok st' ->
  settled (starts ++ map geno pop) (arch st') /\ good (nstate st') /\ (forall v, length v = length dirs -> (cov (arch st) v \/ In v (map vec pop)) -> cov (arch st') v) /\
  exists c, natural_continue G (arch st') = false \/ fst (continuator c (arch st')) = false.
Proof.
  intros Hs Hg Hp E. unfold DmlsModel.dmls in E. apply rbind_ok in E as ([a b] & E0 & E). rewrite Forall_forall in Hp.
  destruct (offer_settled G K dirs move evaluate keys lengths replace (starts ++ map geno pop) (arch st) pop) as (a' & b' & E0' & H1 & H2 & H3).
  - apply (settled_more starts); auto. apply incl_appl, incl_refl.
  - intros y Hy. destruct (Hp y Hy) as (A & B). split; auto. split; auto. apply is_start. apply in_or_app. right. apply in_map. auto.
  - assert (a' = a) as -> by congruence. destruct (loop_ends (starts ++ map geno pop) fuel (State a (nstate st) (cstate st) (draws st)) st' H1 Hg E) as (A & B & D & F). cbn [arch] in *. split; auto. split; auto. split; auto.
    intros v Hv Hin. apply D; auto. destruct Hin as [(m & Hm & Hl)|Hin].
    + destruct (H3 m (in_or_app _ _ _ (or_introl Hm))) as (m' & Hm' & Hl'). exists m'. split; auto. apply (le_trans dirs v (vec m)); auto; [rewrite (proj1 (proj1 (proj2 Hs) m Hm)); auto|rewrite (proj1 (proj1 (proj2 H1) m' Hm')); auto].
    + apply in_map_iff in Hin as (m & <- & Hm). apply H3. apply in_or_app. auto.
Qed.
Lemma history_settled starts st : history starts st -> settled starts (arch st) /\ good (nstate st) /\ forall g, In g starts -> cov (arch st) (evaluate g).
Proof.
  induction 1 as [s c ds Hg|starts st c ds fuel pop st' H (I1 & I2 & I3) Hp E].
  - split; [apply settled_nil|]. split; auto. intros g [].
  - destruct (run_ends starts fuel pop (State (arch st) (nstate st) c ds) st' I1 I2 Hp E) as (A & B & D & _). split; auto. split; auto. intros g Hin. apply D; auto. apply in_app_or in Hin as [Hin|Hin]; [left; apply I3; auto|right].
    apply in_map_iff in Hin as (x & <- & Hx). rewrite Forall_forall in Hp. rewrite <- (proj1 (Hp x Hx)). apply in_map. auto.
Qed.
End One.

(** At the end of any run, whatever the history: the members are mutually non-dominated, reached
    from the starts, with their true vectors, and nothing the search started from is better. *)
Theorem C111_archive explore replace select continuator starts st : explorer explore -> history explore replace select continuator starts st ->
  antichain (fun a b => dominates dirs (evaluate b) (evaluate a)) (fun a b => equal_vectors (evaluate a) (evaluate b)) (map geno (arch st)) /\
  (forall x, In x (arch st) -> vec x = evaluate (geno x) /\ descends G K move starts (geno x)) /\
  (forall g, In g starts -> matched dirs (evaluate g) (map evaluate (map geno (arch st)))) /\
  (forall x, In x (arch st) -> flag x = 1 -> neighbours_matched G K dirs evaluate keys move (geno x) (map geno (arch st))).
Proof.
  intros He H. destruct (history_settled explore He replace select continuator starts st H) as ((Hc & Hr & Hs) & _ & Hcov).
  assert (M : forall v, (exists m, In m (arch st) /\ (dominates dirs (vec m) v \/ equal_vectors v (vec m))) -> matched dirs v (map evaluate (map geno (arch st)))).
  { intros v (m & Hm & Hl). exists (evaluate (geno m)). split; [apply in_map, in_map; auto|]. rewrite <- (proj1 (Hr m Hm)). auto. }
  split; [|split; [|split]].
  - intros i j g h Hij Hg Hh. rewrite nth_error_map' in Hg, Hh. destruct (nth_error (arch st) i) as [x|] eqn:Ex; [|discriminate]. destruct (nth_error (arch st) j) as [y|] eqn:Ey; [|discriminate]. cbn in Hg, Hh. injection Hg as <-. injection Hh as <-.
    rewrite <- (proj1 (Hr x (nth_error_In _ _ Ex))), <- (proj1 (Hr y (nth_error_In _ _ Ey))). apply (Hc i j); auto.
  - intros x Hx. destruct (Hr x Hx) as (A & B & _). auto.
  - intros g Hg. apply M. auto.
  - intros x Hx Hf k Hk. apply M. auto.
Qed.
(** A run that its continuator does not stop ends in a Pareto local optimum set. *)
Theorem C111_local_optimum explore replace select continuator starts st fuel pop st' : explorer explore -> history explore replace select continuator starts st ->
  Forall new_solution pop -> (forall c a, fst (continuator c a) = true) -> dmls G S dirs explore replace select C continuator fuel pop st = Ok st' ->
  pareto_local_optimum G K dirs evaluate keys move (map geno (arch st')).
Proof.
  intros He H Hp Hc E. destruct (history_settled explore He replace select continuator starts st H) as (Hs & Hg & _).
  destruct (run_ends explore He replace select continuator starts fuel pop st st' Hs Hg Hp E) as (A & B & D & (c & [F|F])); [|rewrite Hc in F; discriminate]. eapply settled_optimum; eauto.
Qed.

(** ** termination *)
Hypothesis always_neighbours : forall g, has g = true.
Hypothesis shuf_ok : forall d l, Permutation l (shuf d l).
Lemma improving_is fuel explore : improving_explorer fuel explore -> explorer explore.
Proof. intros [|]; constructor. Qed.
Lemma improving_progress fuel explore : improving_explorer fuel explore -> explorer_progress G S dirs evaluate good explore.
Proof. intros [|]; [eapply exhaustive_progress; eauto|apply (first_improving_both G K S dirs has nh move eval evaluate keys good); auto]. Qed.
Lemma selector_ok select : selector select -> forall a ds sel ds', select a ds = Ok (sel, ds') -> (forall i, In i sel -> exists x, nth_error a i = Some x /\ flag x = 0) /\ ((exists x, In x a /\ flag x = 0) -> sel <> []).
Proof. intros [|number Hn] a ds sel ds' E; [eapply unvisited_ok|eapply number_unvisited_ok]; eauto. Qed.
(** An archive that keeps what it has: with [Vs] listing the objective vectors that can be reached,
    the loop makes at most |Vs| + 2 turns: allowing more changes nothing. *)
Theorem C112_turns explore select continuator starts st pop Vs fuel more : improving_explorer fuel explore -> selector select -> history explore false select continuator starts st -> Forall new_solution pop ->
  (forall g, descends G K move (starts ++ map geno pop) g -> exists v, In v Vs /\ equal_vectors (evaluate g) v) ->
  dmls G S dirs explore false select C continuator (length Vs + 2 + more) pop st = dmls G S dirs explore false select C continuator (length Vs + 2) pop st.
Proof.
  intros He Hsel H Hp Hv. destruct (history_settled explore (improving_is _ _ He) false select continuator starts st H) as (Hs & Hg & _). unfold dmls.
  destruct (update_pop (sol G) (list Q) vec (pareto 0 dirs) (same_vector 0) false (arch st) pop false) as [[a b]| | |] eqn:E0; auto. cbn [rbind]. rewrite Forall_forall in Hp.
  destruct (offer_settled G K dirs move evaluate keys lengths false (starts ++ map geno pop) (arch st) pop) as (a' & b' & E0' & H1 & H2 & H3).
  - apply (settled_more starts); auto. apply incl_appl, incl_refl.
  - intros y Hy. destruct (Hp y Hy) as (A & B). split; auto. split; auto. apply is_start. apply in_or_app. right. apply in_map. auto.
  - assert (a' = a) as -> by congruence. replace (length Vs + 2 + more) with (Datatypes.S (Datatypes.S (length Vs)) + more) by lia. replace (length Vs + 2) with (Datatypes.S (Datatypes.S (length Vs))) by lia.
    apply (enough_turns_any G K S dirs move eval evaluate keys good eval_right lengths explore (explorer_all _ (improving_is _ _ He)) (improving_progress _ _ He) select (selector_ok select Hsel) C continuator (starts ++ map geno pop) Vs Hv); auto.
Qed.
(** With a neighborhood that uses no draws and a generator that can serve the selections, it returns. *)
Theorem C112_returns explore select continuator starts st pop Vs fuel : improving_explorer fuel explore -> selector select -> history explore false select continuator starts st -> Forall new_solution pop ->
  (forall g, descends G K move (starts ++ map geno pop) g -> exists v, In v Vs /\ equal_vectors (evaluate g) v) ->
  (forall g, quiet good (nh g) fuel) -> length Vs + 2 <= length (draws st) ->
  exists st', dmls G S dirs explore false select C continuator (length Vs + 2) pop st = Ok st'.
Proof.
  intros He Hsel H Hp Hv Hq Hd. destruct (history_settled explore (improving_is _ _ He) false select continuator starts st H) as (Hs & Hg & _). unfold dmls. rewrite Forall_forall in Hp.
  destruct (offer_settled G K dirs move evaluate keys lengths false (starts ++ map geno pop) (arch st) pop) as (a' & b' & E0' & H1 & H2 & H3).
  - apply (settled_more starts); auto. apply incl_appl, incl_refl.
  - intros y Hy. destruct (Hp y Hy) as (A & B). split; auto. split; auto. apply is_start. apply in_or_app. right. apply in_map. auto.
  - rewrite E0'. cbn [rbind]. replace (length Vs + 2) with (Datatypes.S (Datatypes.S (length Vs))) in * by lia.
    apply (returns_any G K S dirs move eval evaluate keys good eval_right lengths explore (explorer_all _ (improving_is _ _ He)) (improving_progress _ _ He) select (selector_ok select Hsel) C continuator (starts ++ map geno pop) Vs Hv); auto.
    + destruct Hsel; [apply unvisited_total|apply number_unvisited_total].
    + intros src s ds _ Gs. destruct (explorers_total G K S dirs has nh move eval keys good fuel nh_ok (fun g _ => Hq g) src s ds Gs) as (A & B). destruct He; auto.
Qed.
End Searches.
Print Assumptions C111_archive.
Print Assumptions C111_local_optimum.
Print Assumptions C112_turns.
Print Assumptions C112_returns.

(** The neighborhoods over keys 0..n-1, in order or in random order, meet the contract. *)
Theorem C111_neighborhoods n : 0 < n -> enumerates (fun s => s < n) (order_nh n) (seq 0 n) /\ enumerates (wr_ok n) (without_repl_nh n) (seq 0 n) /\ quiet (fun s => s < n) (order_nh n) n.
Proof. intros Hn. split; [apply order_enumerates; auto|]. split; [apply without_repl_enumerates; auto|apply order_quiet; auto]. Qed.
Print Assumptions C111_neighborhoods.

(** ** a problem on pairs of bits, both objectives minimised *)
Definition ex_eval (g : bool * bool) : list Q := match g with (false, false) => [3#1; 3#1] | (true, false) => [1#1; 2#1] | (false, true) => [2#1; 1#1] | (true, true) => [0#1; 4#1] end%Q.
Definition ex_move (k : nat) (g : bool * bool) : bool * bool := match k with 0 => (negb (fst g), snd g) | _ => (fst g, negb (snd g)) end.
Definition ex_go (c : unit) (a : list (sol (bool * bool))) : bool * unit := (true, tt).
Definition ex_run (explore : sol (bool * bool) -> nat -> list nat -> res (list (sol (bool * bool)) * bool * nat * list nat)) replace select (fuel : nat) :=
  dmls (bool * bool) nat [true; true] explore replace select unit ex_go fuel [Sol (false, false) (ex_eval (false, false)) 0] (State [] 0 tt [5; 3; 8; 1; 1; 1]).
Definition ex_eval_k (g : bool * bool) k := ex_eval (ex_move k g).
Notation ex_exhaustive := (exhaustive (bool * bool) nat nat (fun _ => true) (fun _ => order_nh 2) ex_move ex_eval_k 2).
Notation ex_improving := (first_improving (bool * bool) nat nat [true; true] (fun _ => true) (fun _ => order_nh 2) ex_move ex_eval_k 2).
Notation ex_nodes := (no_desimproving (bool * bool) nat nat [true; true] (fun _ => true) (fun _ => order_nh 2) ex_move ex_eval_k 2).
Notation ex_sub := (simple_sub (bool * bool) nat nat (fun _ => true) (fun _ => order_nh 2) ex_move ex_eval_k 2).
Lemma ex_vectors starts g : descends (bool * bool) nat ex_move starts g -> exists v, In v [[3#1; 3#1]; [1#1; 2#1]; [2#1; 1#1]; [0#1; 4#1]]%Q /\ equal_vectors (ex_eval g) v.
Proof. intros _. exists (ex_eval g). split; [destruct g as [[|] [|]]; cbn; auto|apply equal_vectors_refl]. Qed.
Lemma ex_lengths g : length (ex_eval g) = length [true; true].
Proof. destruct g as [[|] [|]]; auto. Qed.
Lemma ex_history explore replace select : history (bool * bool) nat [true; true] ex_eval (fun s => s < 2) unit explore replace select ex_go [] (State [] 0 tt [5; 3; 8; 1; 1; 1]).
Proof. constructor. auto. Qed.
Notation ex_one := (number_unvisited (bool * bool) (fun d l => if Nat.even d then l else rev l) 1).
(** exhaustive exploration of all unvisited solutions (moeoPLS2) and of one at a time (moeoPLS1) *)
Definition ex_is (r : res (dmls_state (bool * bool) nat unit)) l := match r with Ok st => map geno (arch st) = l | _ => False end.
Example C111_example : ex_is (ex_run ex_exhaustive false (unvisited (bool * bool)) 6) [(true, false); (false, true); (true, true)] /\
  ex_is (ex_run ex_exhaustive false ex_one 6) [(true, false); (false, true); (true, true)] /\
  ex_is (ex_run ex_improving false ex_one 6) [(true, false); (true, true); (false, true)] /\
  ex_is (ex_run ex_sub false (unvisited (bool * bool)) 6) [(true, false); (false, true); (true, true)].
Proof. vm_compute. auto. Qed.
(** the theorem applied to that run *)
Example C111_applied : match ex_run ex_sub false (unvisited (bool * bool)) 6 with Ok st => pareto_local_optimum (bool * bool) nat [true; true] ex_eval (fun _ => [0; 1]) ex_move (map geno (arch st)) | _ => False end.
Proof.
  destruct (ex_run ex_sub false (unvisited (bool * bool)) 6) as [st| | |] eqn:E; try (vm_compute in E; discriminate).
  refine (C111_local_optimum (bool * bool) nat nat [true; true] (fun _ => true) (fun _ => order_nh 2) ex_move ex_eval_k ex_eval (fun _ => [0; 1]) (fun s => s < 2) unit _ ex_lengths _ ex_sub false (unvisited (bool * bool)) ex_go [] (State [] 0 tt [5; 3; 8; 1; 1; 1]) 6 [Sol (false, false) (ex_eval (false, false)) 0] st _ _ _ _ E); auto.
  - intros g _. apply (order_enumerates 2). auto.
  - constructor.
  - apply ex_history.
  - repeat constructor.
Qed.
Example C112_example : exists st, ex_run ex_improving false ex_one 6 = Ok st.
Proof.
  refine (C112_returns (bool * bool) nat nat [true; true] (fun _ => true) (fun _ => order_nh 2) ex_move ex_eval_k ex_eval (fun _ => [0; 1]) (fun s => s < 2) (fun d l => if Nat.even d then l else rev l) unit _ ex_lengths _ _ _ ex_improving ex_one ex_go [] (State [] 0 tt [5; 3; 8; 1; 1; 1]) [Sol (false, false) (ex_eval (false, false)) 0] [[3#1; 3#1]; [1#1; 2#1]; [2#1; 1#1]; [0#1; 4#1]]%Q 2 _ _ _ _ _ _ _); auto.
  - intros g _. apply (order_enumerates 2). auto.
  - intros d l. destruct (Nat.even d); [auto|apply Permutation_rev].
  - constructor.
  - constructor. auto.
  - apply ex_history.
  - repeat constructor.
  - apply ex_vectors.
  - intros g. apply (order_quiet 2); auto.
Qed.

(** ** C113: searches that never end *)
Lemma forever {G S C} dirs explore replace select (continuator : C -> list (sol G) -> bool * C) (P : dmls_state G S C -> Prop) :
  (forall st, P st -> exists st', dmls_turn G S dirs explore replace select C continuator st = Ok (st', true) /\ P st') ->
  forall fuel st, P st -> dmls_loop G S dirs explore replace select C continuator fuel st = NoDraw.
Proof. intros H. induction fuel as [|fuel IH]; intros st Hp; cbn [dmls_loop]; auto. destruct (H st Hp) as (st' & E & Hp'). rewrite E. cbn [rbind]. auto. Qed.
Section Orbit.
Variables G S : Type.
Variable turn : dmls_state G S unit -> res (dmls_state G S unit * bool).
Fixpoint orbit (n : nat) (st : dmls_state G S unit) : list (dmls_state G S unit) :=
  match n with 0 => [] | Datatypes.S n => st :: match turn st with Ok (st', _) => orbit n st' | _ => [] end end.
End Orbit.
Ltac follow := let st := fresh in let H := fresh in intros st H; vm_compute in H; repeat (destruct H as [H|H]; [subst st; eexists; split; [vm_compute; reflexivity|vm_compute; tauto]|]); destruct H.
(** An archive that replaces equal vectors (the default) forgets that a solution was visited: on the
    problem above, where C112 gives an end for the other archives, the search goes on for ever. *)
Theorem C113_replacing_archive_refuted fuel : ex_run ex_exhaustive true (unvisited (bool * bool)) fuel = NoDraw.
Proof.
  unfold ex_run, dmls. set (st0 := State [Sol (false, false) (ex_eval (false, false)) 0] 0 tt [5; 3; 8; 1; 1; 1]).
  change (dmls_loop (bool * bool) nat [true; true] ex_exhaustive true (unvisited (bool * bool)) unit ex_go fuel st0 = NoDraw).
  apply (forever _ _ _ _ _ (fun st => In st (orbit _ _ (dmls_turn (bool * bool) nat [true; true] ex_exhaustive true (unvisited (bool * bool)) unit ex_go) 6 st0))); [follow|left; auto].
Qed.
Print Assumptions C113_replacing_archive_refuted.
(** Neither does it end with the explorer that stops at the first neighbour it keeps, even with an
    archive that does not replace: the same neighbour is found again. *)
Theorem C113_no_desimproving_refuted fuel : ex_run ex_nodes false (unvisited (bool * bool)) fuel = NoDraw.
Proof.
  unfold ex_run, dmls. set (st0 := State [Sol (false, false) (ex_eval (false, false)) 0] 0 tt [5; 3; 8; 1; 1; 1]).
  change (dmls_loop (bool * bool) nat [true; true] ex_nodes false (unvisited (bool * bool)) unit ex_go fuel st0 = NoDraw).
  apply (forever _ _ _ _ _ (fun st => In st (orbit _ _ (dmls_turn (bool * bool) nat [true; true] ex_nodes false (unvisited (bool * bool)) unit ex_go) 6 st0))); [follow|left; auto].
Qed.
Print Assumptions C113_no_desimproving_refuted.
(** Nor with an explorer of fewer neighbours than there are. *)
Notation ex_sub1 := (simple_sub (bool * bool) nat nat (fun _ => true) (fun _ => order_nh 2) ex_move ex_eval_k 1).
Theorem C113_sub_neighborhood_refuted fuel : ex_run ex_sub1 false (unvisited (bool * bool)) fuel = NoDraw.
Proof.
  unfold ex_run, dmls. set (st0 := State [Sol (false, false) (ex_eval (false, false)) 0] 0 tt [5; 3; 8; 1; 1; 1]).
  change (dmls_loop (bool * bool) nat [true; true] ex_sub1 false (unvisited (bool * bool)) unit ex_go fuel st0 = NoDraw).
  apply (forever _ _ _ _ _ (fun st => In st (orbit _ _ (dmls_turn (bool * bool) nat [true; true] ex_sub1 false (unvisited (bool * bool)) unit ex_go) 6 st0))); [follow|left; auto].
Qed.
Print Assumptions C113_sub_neighborhood_refuted.
(** Nor when a solution has no neighbour: it is never marked as visited. *)
Notation ex_none := (exhaustive (bool * bool) nat nat (fun _ => false) (fun _ => order_nh 2) ex_move ex_eval_k 2).
Theorem C113_no_neighbour_refuted fuel : ex_run ex_none false (unvisited (bool * bool)) fuel = NoDraw.
Proof.
  unfold ex_run, dmls. set (st0 := State [Sol (false, false) (ex_eval (false, false)) 0] 0 tt [5; 3; 8; 1; 1; 1]).
  change (dmls_loop (bool * bool) nat [true; true] ex_none false (unvisited (bool * bool)) unit ex_go fuel st0 = NoDraw).
  apply (forever _ _ _ _ _ (fun st => In st (orbit _ _ (dmls_turn (bool * bool) nat [true; true] ex_none false (unvisited (bool * bool)) unit ex_go) 6 st0))); [follow|left; auto].
Qed.
Print Assumptions C113_no_neighbour_refuted.
(** Nor when zero solutions are selected per turn. *)
Notation ex_zero := (number_unvisited (bool * bool) (fun d l => l) 0).
Theorem C113_zero_selected_refuted fuel : ex_run ex_exhaustive false ex_zero fuel = NoDraw.
Proof.
  unfold ex_run, dmls.
  change (dmls_loop (bool * bool) nat [true; true] ex_exhaustive false ex_zero unit ex_go fuel (State [Sol (false, false) (ex_eval (false, false)) 0] 0 tt [5; 3; 8; 1; 1; 1]) = NoDraw).
  assert (H : forall fuel ds, dmls_loop (bool * bool) nat [true; true] ex_exhaustive false ex_zero unit ex_go fuel (State [Sol (false, false) (ex_eval (false, false)) 0] 0 tt ds) = NoDraw); [|auto].
  induction fuel0 as [|f IH]; intros ds; [reflexivity|]. cbn [dmls_loop]. destruct ds as [|d ds]; [reflexivity|]. change (dmls_turn _ _ _ _ _ _ _ _ _) with (Ok (State (S := nat) [Sol (false, false) (ex_eval (false, false)) 0] 0 tt ds, true)). cbn [rbind]. auto.
Qed.
Print Assumptions C113_zero_selected_refuted.
(** moeoDMLSMonOp keeps its archive: applied to a second solution it may return one that cannot be
    reached from it. Here a move changes the first bit only. *)
Definition ex_move1 (k : nat) (g : bool * bool) : bool * bool := (negb (fst g), snd g).
Notation ex_exhaustive1 := (exhaustive (bool * bool) nat nat (fun _ => true) (fun _ => order_nh 1) ex_move1 (fun g k => ex_eval (ex_move1 k g)) 1).
Notation ex_mutate := (dmls_mutate (bool * bool) nat [true; true] ex_exhaustive1 false (unvisited (bool * bool)) unit ex_go 6).
Notation ex_x g := (Sol g (ex_eval g) 0).
Theorem C113_foreign_result_refuted : exists y0 st y st',
  ex_mutate (ex_x (false, false)) (State [] 0 tt [0; 0; 0; 0]) = Ok (y0, st) /\ ex_mutate (ex_x (false, true)) st = Ok (y, st') /\
  ~ descends (bool * bool) nat ex_move1 [(false, true)] (geno y).
Proof.
  destruct (ex_mutate (ex_x (false, false)) (State [] 0 tt [0; 0; 0; 0])) as [[y0 st]| | |] eqn:E; vm_compute in E; try discriminate.
  destruct (ex_mutate (ex_x (false, true)) st) as [[y st']| | |] eqn:E'; injection E as <- <-; vm_compute in E'; try discriminate.
  eexists _, _, _, _. split; [reflexivity|]. split; [vm_compute; exact E'|]. injection E' as <- <-. cbn [geno].
  assert (H : forall g, descends (bool * bool) nat ex_move1 [(false, true)] g -> snd g = true) by (induction 1 as [g [<-|[]]|]; auto). intros D. apply H in D. discriminate.
Qed.
Print Assumptions C113_foreign_result_refuted.
