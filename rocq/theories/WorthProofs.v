(** Proofs for worths: sorting, caching, selection, scaling, sharing and the niche penalties. *)
From Coq Require Import List Arith Lia Bool ZArith QArith Qabs Lqa Qminmax Permutation Sorted.
From Verif Require Import Outcome Lib OrderSpec OrderLemmas BoundsModel BoundsProofs EvalSpec EvalNk SelectModel SelectSpec SelectProofs WorthModel WorthSpec WorthNd.
From Coq Require Import List.
Import ListNotations.
Close Scope Q_scope.

Section Sync.
Context {A F T : Type}.
Variables (none : A) (zero : T) (nofit : F).
Variables (ltw : T -> T -> bool) (eqf : F -> F -> bool) (fit : A -> F).
Variable sort : forall X : Type, (X -> X -> bool) -> list X -> list X.
Hypothesis Hsort : std_sort_ok sort.
Hypothesis SWO : strict_weak_order ltw.

Lemma by_worth_ok ws n : Permutation (by_worth zero ltw sort ws n) (seq 0 n) /\ best_first ltw (map (fun i => nth i ws zero) (by_worth zero ltw sort ws n)).
Proof.
  unfold by_worth. destruct (Hsort nat (fun a b => ltw (nth b ws zero) (nth a ws zero)) (seq 0 n)) as [P S].
  { apply (swo_preimage (fun i => nth i ws zero) (fun a b => ltw b a)). apply swo_flip. exact SWO. }
  split; [symmetry; exact P|]. unfold best_first. set (l := sort nat _ _) in *. clearbody l. clear P. induction S as [|a l S IH H]; cbn; constructor; auto.
  apply Forall_forall. intros y Hy. apply in_map_iff in Hy as (b & <- & Hb). rewrite Forall_forall in H. apply H. exact Hb.
Qed.
Lemma combine_map {X Y Z} (f : Z -> X) (g : Z -> Y) l : combine (map f l) (map g l) = map (fun z => (f z, g z)) l.
Proof. induction l; cbn; congruence. Qed.
Lemma pick_all {X} (d : X) l : map (fun i => nth i l d) (seq 0 (length l)) = l.
Proof. induction l as [|x l IH]; cbn; [reflexivity|]. f_equal. rewrite <- seq_shift, map_map. exact IH. Qed.
Lemma pairs_perm {X Y} (d : X) (e : Y) xs ys idx : length ys = length xs -> Permutation idx (seq 0 (length xs)) ->
  Permutation (combine (map (fun i => nth i xs d) idx) (map (fun i => nth i ys e) idx)) (combine xs ys).
Proof.
  intros L P. rewrite combine_map. assert (E : combine xs ys = map (fun z => (nth z xs d, nth z ys e)) (seq 0 (length xs))).
  { rewrite <- combine_map, (pick_all d xs). rewrite <- L, (pick_all e ys). reflexivity. }
  rewrite E. apply Permutation_map. exact P.
Qed.
Lemma sort_pop_ok pop ws : length ws = length pop -> exists pop' ws', sort_pop none zero ltw sort pop ws = Ok (pop', ws') /\
  length pop' = length pop /\ length ws' = length ws /\ Permutation (combine pop' ws') (combine pop ws) /\ best_first ltw ws'.
Proof.
  intros L. unfold sort_pop. rewrite (proj2 (Nat.ltb_ge _ _)) by lia. destruct (by_worth_ok ws (length pop)) as [P B]. rewrite L, Nat.sub_diag. cbn [repeat]. rewrite app_nil_r.
  eexists _, _. split; [reflexivity|]. rewrite !map_length, (Permutation_length P), seq_length. split; [reflexivity|]. split; [reflexivity|]. split; [|exact B]. apply pairs_perm; auto.
Qed.
Lemma combine_split_at {X Y} : forall n (xs : list X) (ys : list Y), combine (firstn n xs) (firstn n ys) ++ combine (skipn n xs) (skipn n ys) = combine xs ys.
Proof. induction n as [|n IH]; intros [|x xs] [|y ys]; cbn; auto; [destruct (skipn n xs); reflexivity|]. f_equal. apply IH. Qed.
Lemma truncate_ok pop ws sz : length ws = length pop -> sz <= length pop ->
  exists pop' ws' kp kw dropped, sort_pop none zero ltw sort pop ws = Ok (pop', ws') /\ resize_pop none zero sz pop' ws' = (kp, kw) /\ length kp = sz /\ length kw = sz /\
  Permutation (combine kp kw ++ dropped) (combine pop ws) /\ best_first ltw kw /\ forall w x w', In w kw -> In (x, w') dropped -> ltw w w' = false.
Proof.
  intros L Hs. destruct (sort_pop_ok pop ws L) as (pop' & ws' & E & L1 & L2 & P & B). exists pop', ws', (firstn sz pop'), (firstn sz ws'), (combine (skipn sz pop') (skipn sz ws')).
  split; [exact E|]. unfold resize_pop, resized. rewrite L1, L2, L. replace (sz - length pop) with 0 by lia. cbn [repeat]. rewrite !app_nil_r. split; [reflexivity|].
  rewrite !firstn_length, combine_split_at. split; [lia|]. split; [lia|]. split; [exact P|]. unfold best_first in *. rewrite <- (firstn_skipn sz ws') in B. apply StronglySorted_app_inv in B as (B1 & B2 & B3).
  split; [exact B1|]. intros w x w' Hw Hd. apply in_combine_r in Hd. exact (B3 w w' Hw Hd).
Qed.

(** the cache *)
Variable calculate : list A -> list T -> res (list T).
Hypothesis Heq : forall a b, eqf a b = true <-> a = b.
Hypothesis Hlen : forall pop old ws, calculate pop old = Ok ws -> length ws = length pop.
Inductive wop := Call (pop : list A) | SortIt.
Fixpoint session (ops : list wop) (st : cached (F:=F) (T:=T)) (pop : list A) : res (cached (F:=F) (T:=T) * list A) :=
  match ops with
  | [] => Ok (st, pop)
  | Call p :: r => let '(st', o) := cached_call eqf fit calculate st p in let! _ := o in session r st' p
  | SortIt :: r => let! (st', p) := cached_sort none zero nofit ltw sort st pop in session r st' p
  end.
Lemma same_iff : forall l l', same_fitnesses eqf l l' = true <-> l = l'.
Proof.
  induction l as [|a l IH]; intros [|b l']; cbn; try (split; congruence). rewrite andb_true_iff, Heq, IH. split; [intros [-> ->]; reflexivity|intros H; injection H as -> ->; auto].
Qed.
Lemma sort_fits (pop : list A) (ws : list T) : cache (Cached (map fit pop) ws) = map fit pop.
Proof. reflexivity. Qed.
Lemma session_ok : forall ops st pop, cache st = map fit pop -> up_to_date fit calculate pop (worths st) ->
  forall st' pop', session ops st pop = Ok (st', pop') -> cache st' = map fit pop' /\ up_to_date fit calculate pop' (worths st').
Proof.
  induction ops as [|[p|] ops IH]; intros st pop C U st' pop' H; cbn [session] in H.
  - injection H as <- <-. auto.
  - destruct (cached_call eqf fit calculate st p) as [st1 o] eqn:E. destruct o as [[]| | |]; cbn [rbind] in H; try discriminate. apply (IH st1 p) in H; auto.
    + unfold cached_call in E. destruct (_ && _) eqn:B.
      * apply andb_true_iff in B as [_ B]. apply same_iff in B. injection E as <-. exact B.
      * destruct (calculate p (worths st)); try discriminate. injection E as <-. reflexivity.
    + unfold cached_call in E. destruct (_ && _) eqn:B.
      * apply andb_true_iff in B as [_ B]. apply same_iff in B. injection E as <-. destruct U as (Lw & U).
        rewrite C in B. assert (Lp : length pop = length p) by (apply (f_equal (@length F)) in B; rewrite !map_length in B; exact B).
        split; [congruence|]. rewrite <- B. destruct U as [->|U]; [left; destruct p; [reflexivity|discriminate]|right; exact U].
      * destruct (calculate p (worths st)) as [ws| | |] eqn:Ec; try discriminate. injection E as <-. cbn [worths]. assert (Lc := Hlen _ _ _ Ec). split; [exact Lc|]. right. exists p, (worths st), ws. auto.
  - destruct (cached_sort none zero nofit ltw sort st pop) as [[st1 p1]| | |] eqn:E; cbn [rbind] in H; try discriminate. apply (IH st1 p1) in H; auto.
    + unfold cached_sort in E. destruct (_ || _); [discriminate|]. injection E as <- <-. cbn [cache]. rewrite C.
      rewrite !map_map. apply map_ext_in. intros i Hi. destruct (by_worth_ok (worths st) (length pop)) as [P _]. apply (Permutation_in _ P), in_seq in Hi.
      rewrite (nth_indep _ nofit (fit none)) by (rewrite map_length; lia). apply map_nth.
    + unfold cached_sort in E. destruct (_ || _) eqn:B; [discriminate|]. injection E as <- <-. cbn [worths]. destruct U as (Lw & U).
      destruct (by_worth_ok (worths st) (length pop)) as [P _]. rewrite Lw, Nat.sub_diag. cbn [repeat]. rewrite app_nil_r. split; [rewrite !map_length; reflexivity|].
      destruct U as [->|(pop0 & old & ws0 & U1 & U2 & U3)]; [left; cbn in P; apply Permutation_sym, Permutation_nil in P; cbn; rewrite P; reflexivity|right].
      exists pop0, old, ws0. split; [exact U1|]. split; [exact U2|]. rewrite <- U3. rewrite map_map.
      transitivity (combine (map (fun i => nth i (map fit pop) (fit none)) (by_worth zero ltw sort (worths st) (length pop))) (map (fun i => nth i (worths st) zero) (by_worth zero ltw sort (worths st) (length pop)))).
      * apply Permutation_refl'. f_equal. apply map_ext. intros i. symmetry. apply map_nth.
      * apply pairs_perm; rewrite map_length; auto.
Qed.
Lemma session_from_new ops st' pop' : session ops (Cached [] []) [] = Ok (st', pop') -> up_to_date fit calculate pop' (worths st').
Proof. intros H. apply (session_ok ops (Cached [] []) []) in H; [tauto|reflexivity|]. split; [reflexivity|left; reflexivity]. Qed.

(** selection *)
Variable perf2worth : list A -> res (list T).
Lemma chosen_ok debug pop st ws i x : perf2worth pop = Ok ws -> choose_setup fit perf2worth pop = Ok st -> nth_error pop i = Some x -> w_of st = ws /\ chosen eqf fit debug st pop i = Ok x.
Proof.
  intros E H Hx. unfold choose_setup in H. rewrite E in H. cbn [rbind] in H. injection H as <-. split; [reflexivity|]. unfold chosen. cbn [f_of]. rewrite nth_error_map, Hx. cbn. rewrite (proj2 (Heq _ _) eq_refl). destruct debug; reflexivity.
Qed.
Lemma det_worth_ok debug pop ws t ds : perf2worth pop = Ok ws -> length ws = length pop -> pop <> [] -> 1 <= t -> t <= length ds ->
  exists st i x w, choose_setup fit perf2worth pop = Ok st /\ det_worth_select ltw eqf fit debug t st pop ds = Ok (x, skipn t ds) /\
  nth_error pop i = Some x /\ nth_error ws i = Some w /\ In i (contestants pop t ds) /\ forall c w', In c (contestants pop t ds) -> nth_error ws c = Some w' -> ltw w w' = false.
Proof.
  intros E L Ne Ht Hd. destruct (det_tournament_spec _ ltw SWO ws t ds) as (i & w & D & Hw & Hc & B); [destruct ws, pop; cbn in *; congruence|exact Ht|exact Hd|].
  assert (Ec : contestants ws t ds = contestants pop t ds) by (unfold contestants; rewrite L; reflexivity). rewrite Ec in *.
  assert (Hi := nth_error_lt _ _ _ Hw). destruct (nth_error pop i) as [x|] eqn:Hx; [|apply nth_error_None in Hx; lia].
  exists (Chooser ws (map fit pop)), i, x, w. assert (S : choose_setup fit perf2worth pop = Ok (Chooser ws (map fit pop))) by (unfold choose_setup; rewrite E; reflexivity).
  split; [exact S|]. split; [|auto]. unfold det_worth_select. cbn [w_of]. rewrite D. cbn [rbind]. rewrite (proj2 (chosen_ok debug pop _ ws i x E S Hx)). reflexivity.
Qed.
Lemma stoch_worth_ok debug certain pop ws d1 d2 d3 ds : perf2worth pop = Ok ws -> length ws = length pop -> pop <> [] ->
  exists st i x w w1 w2, choose_setup fit perf2worth pop = Ok st /\ stoch_worth_select ltw eqf fit debug certain st pop (d1 :: d2 :: d3 :: ds) = Ok (x, ds) /\
  nth_error pop i = Some x /\ nth_error ws i = Some w /\ nth_error ws (d1 mod length pop) = Some w1 /\ nth_error ws (d2 mod length pop) = Some w2 /\
  (i = d1 mod length pop \/ i = d2 mod length pop) /\
  (certain = true \/ Nat.odd d3 = true -> ltw w w1 = false /\ ltw w w2 = false) /\
  (certain = false -> Nat.odd d3 = false -> ltw w1 w = false /\ ltw w2 w = false).
Proof.
  intros E L Ne. destruct (stoch_tournament_spec _ ltw SWO ws certain d1 d2 d3 ds) as (w1 & w2 & i & w & H1 & H2 & D & Hw & Hi' & B1 & B2); [destruct ws, pop; cbn in *; congruence|]. rewrite L in *.
  assert (Hi := nth_error_lt _ _ _ Hw). destruct (nth_error pop i) as [x|] eqn:Hx; [|apply nth_error_None in Hx; lia].
  exists (Chooser ws (map fit pop)), i, x, w, w1, w2. assert (S : choose_setup fit perf2worth pop = Ok (Chooser ws (map fit pop))) by (unfold choose_setup; rewrite E; reflexivity).
  split; [exact S|]. split; [|auto 10]. unfold stoch_worth_select. cbn [w_of]. rewrite D. cbn [rbind]. rewrite (proj2 (chosen_ok debug pop _ ws i x E S Hx)). reflexivity.
Qed.
(** a debug build never returns an individual whose fitness is not the one the worth was computed for *)
Lemma debug_ok (st : chooser (F:=F) (T:=T)) pop i x : chosen eqf fit true st pop i = Ok x -> nth_error pop i = Some x /\ nth_error (f_of st) i = Some (fit x).
Proof.
  unfold chosen. intros H. destruct (nth_error (f_of st) i) as [f|] eqn:Ef; [|discriminate]. destruct (nth_error pop i) as [y|] eqn:Ey; [|discriminate]. cbn [of_opt rbind] in H.
  destruct (eqf f (fit y)) eqn:E; [|discriminate]. injection H as <-. apply Heq in E. subst f. auto.
Qed.
End Sync.
