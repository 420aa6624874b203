(** Proofs about the multi-objective replacements and selectors (C46, C68). *)
From Coq Require Import List Arith Lia Bool ZArith QArith Lqa Permutation Sorted.
From Verif Require Import Outcome Lib OrderSpec OrderLemmas PopModel PopProofs ArchProofs SelectModel SelectSpec SelectQ ReplModel ReplSpec.
Import ListNotations.
Close Scope Q_scope.
Open Scope nat_scope.

Lemma qlt_lt x y : qlt x y = true <-> (x < y)%Q.
Proof. unfold qlt. rewrite negb_true_iff. split; [intros H; apply Qnot_le_lt; intros C; apply Qle_bool_iff in C; congruence|intros H; apply not_true_iff_false; rewrite Qle_bool_iff; lra]. Qed.
Lemma qlt_ge x y : qlt x y = false <-> (y <= x)%Q.
Proof. unfold qlt. rewrite negb_false_iff, Qle_bool_iff. tauto. Qed.
Lemma qlt_swo : strict_weak_order qlt.
Proof.
  split; [|split].
  - intros a. apply qlt_ge. lra.
  - intros a b c H1 H2. apply qlt_lt in H1, H2. apply qlt_lt. lra.
  - intros a b c H1 H2. apply qlt_ge in H1, H2. apply qlt_ge. lra.
Qed.
Lemma aggregative_swo B wf wd : strict_weak_order (@aggregative B wf wd).
Proof. apply (swo_preimage (fun a => wf * mfit a + wd * mdiv a)%Q qlt qlt_swo). Qed.
Lemma two_keys_swo {T} (k1 k2 : T -> Q) : strict_weak_order (fun a b => if Qeq_bool (k1 a) (k1 b) then qlt (k2 a) (k2 b) else qlt (k1 a) (k1 b)).
Proof.
  assert (E : forall a b, Qeq_bool (k1 a) (k1 b) = true \/ Qeq_bool (k1 a) (k1 b) = false) by (intros; destruct (Qeq_bool _ _); auto).
  assert (E1 : forall a b, Qeq_bool (k1 a) (k1 b) = true <-> (k1 a == k1 b)%Q) by (intros; apply Qeq_bool_iff).
  assert (E0 : forall a b, Qeq_bool (k1 a) (k1 b) = false <-> ~ (k1 a == k1 b)%Q) by (intros; rewrite <- E1; destruct (Qeq_bool _ _); intuition congruence).
  split; [|split].
  - intros a. destruct (Qeq_bool _ _); apply qlt_ge; lra.
  - intros a b c. destruct (E a b) as [H|H], (E b c) as [H0|H0], (E a c) as [H1|H1]; rewrite H, H0, H1; rewrite ?E1, ?E0 in *; rewrite !qlt_lt; intros; try lra.
  - intros a b c. destruct (E a b) as [H|H], (E b c) as [H0|H0], (E a c) as [H1|H1]; rewrite H, H0, H1; rewrite ?E1, ?E0 in *; rewrite !qlt_ge; intros; try lra.
Qed.
Lemma fit_then_div_swo B : strict_weak_order (@fit_then_div B).
Proof. apply (two_keys_swo mfit mdiv). Qed.
Lemma div_then_fit_swo B : strict_weak_order (@div_then_fit B).
Proof. apply (two_keys_swo mdiv mfit). Qed.

Section Repl.
Variable A B : Type.
Variable comp : A -> A -> bool.
Hypothesis Hswo : strict_weak_order comp.
Variable sort : forall T : Type, (T -> T -> bool) -> list T -> list T.
Hypothesis Hsort : std_sort_ok sort.
Variable solution : A -> B.
Variables fit div : list A -> list A.
Hypothesis Hfit : keeps_solutions solution fit.
Hypothesis Hdiv : keeps_solutions solution div.
Variables fit_del div_del : list A -> A -> list A.
Hypothesis Hfd : forall w, keeps_solutions solution (fun l => fit_del l w).
Hypothesis Hdd : forall w, keeps_solutions solution (fun l => div_del l w).

Lemma keeps_length f : keeps_solutions solution f -> forall l, length (f l) = length l.
Proof. intros H l. specialize (H l). apply Permutation_length in H. rewrite !map_length in H. auto. Qed.
Lemma merged_perm l : Permutation (map solution l) (map solution (div (fit l))).
Proof. eapply Permutation_trans; [apply Hfit|apply Hdiv]. Qed.

Lemma elitist_ok parents offspring : exists kept dropped,
  elitist A comp sort fit div parents offspring = (kept, []) /\
  best_n comp (div (fit (parents ++ offspring))) (length parents) kept /\
  Permutation (map solution (parents ++ offspring)) (map solution kept ++ dropped).
Proof.
  unfold elitist. set (m := div (fit (parents ++ offspring))).
  assert (Lm : length m = length parents + length offspring) by (unfold m; rewrite !keeps_length, app_length by auto; auto).
  assert (Hb : best_n comp m (length parents) (firstn (length parents) (sort A (fun a b => comp b a) m))).
  { apply sorted_best_n; [|lia]. apply Hsort. apply swo_flip; auto. }
  destruct (best_n_sub _ _ _ _ Hb) as (d & Hd). eexists _, (map solution d). split; [reflexivity|]. split; auto.
  rewrite <- map_app. eapply Permutation_trans; [apply merged_perm|]. apply Permutation_map. auto.
Qed.

Lemma pop_back_perm (pop : list A) i w back : nth_error pop i = Some w -> nth_error pop (length pop - 1) = Some back ->
  Permutation pop (w :: removelast (set pop i back)).
Proof.
  intros Hw Hb. destruct (exists_last (l := pop)) as (l & z & ->); [destruct pop; [destruct i; discriminate|discriminate]|].
  rewrite app_length in Hb. cbn in Hb. replace (length l + 1 - 1) with (length l + 0) in Hb by lia. rewrite nth_error_app2 in Hb by lia.
  replace (length l + 0 - length l) with 0 in Hb by lia. inversion Hb; subst.
  assert (Hi : i < length (l ++ [back])) by (apply nth_error_lt in Hw; auto). rewrite app_length in Hi. cbn in Hi.
  destruct (Nat.eq_dec i (length l)) as [->|Ne].
  - rewrite nth_error_app2, Nat.sub_diag in Hw by lia. inversion Hw; subst.
    rewrite set_same by (rewrite nth_error_app2, Nat.sub_diag by lia; auto). rewrite removelast_last.
    apply Permutation_sym, Permutation_cons_append.
  - rewrite nth_error_app1 in Hw by lia. apply nth_error_split in Hw as (l1 & l2 & -> & <-).
    assert (E : set ((l1 ++ w :: l2) ++ [back]) (length l1) back = (l1 ++ back :: l2) ++ [back]).
    { rewrite <- !app_assoc. cbn. rewrite set_mid. reflexivity. }
    rewrite E, removelast_last. rewrite <- app_assoc. cbn.
    eapply Permutation_trans; [apply Permutation_sym, Permutation_middle|]. constructor.
    eapply Permutation_trans; [apply Permutation_app_head, Permutation_sym, Permutation_cons_append|]. auto.
Qed.

Definition update pop w := div_del (fit_del pop w) w.
Lemma update_perm l w : Permutation (map solution l) (map solution (update l w)).
Proof. eapply Permutation_trans; [apply (Hfd w)|apply (Hdd w)]. Qed.
Lemma env_loop_ok sz : forall fuel pop, length pop <= sz + fuel -> exists out dropped,
  env_loop A comp fit_del div_del fuel sz pop = Ok out /\ shrinks comp update sz pop out /\
  (sz <= length pop -> length out = sz) /\ Permutation (map solution pop) (map solution out ++ dropped).
Proof.
  induction fuel as [|f IH]; intros pop Hl; cbn [env_loop].
  - destruct (Nat.ltb_spec sz (length pop)); [lia|]. exists pop, []. split; auto. split; [constructor; auto|]. split; [lia|]. rewrite app_nil_r. auto.
  - destruct (Nat.ltb_spec sz (length pop)) as [Lt|Ge].
    2:{ exists pop, []. split; auto. split; [constructor; auto|]. split; [lia|]. rewrite app_nil_r. auto. }
    destruct (it_worse_element A comp pop) as [i|] eqn:Ei; [|destruct pop; [cbn in Lt; lia|discriminate]]. cbn [of_opt rbind].
    destruct (it_worse_spec A comp Hswo pop i Ei) as (w & Hw & Hworst). rewrite Hw. cbn [of_opt rbind].
    destruct (nth_error_in_some pop (length pop - 1)) as [back Hb]; [lia|]. rewrite Hb. cbn [of_opt rbind].
    rewrite upd_set by (apply nth_error_lt in Hw; auto). cbn [of_opt rbind].
    pose proof (pop_back_perm pop i w back Hw Hb) as Hp. set (rest := removelast (set pop i back)) in *.
    assert (Lr : length rest = length pop - 1) by (apply Permutation_length in Hp; cbn in Hp; lia).
    assert (Lu : length (update rest w) = length rest) by (pose proof (Permutation_length (update_perm rest w)) as P; rewrite !map_length in P; auto).
    destruct (IH (update rest w)) as (out & d & E & Hs & Ho & Pd); [lia|]. fold (update rest w). exists out, (solution w :: d). split; auto.
    split; [econstructor; eauto|]. split; [intros; apply Ho; lia|].
    eapply Permutation_trans; [apply Permutation_map; apply Hp|]. cbn [map]. eapply Permutation_trans; [constructor; apply update_perm|].
    eapply Permutation_trans; [constructor; apply Pd|]. apply Permutation_middle.
Qed.
Lemma environmental_ok parents offspring : exists kept dropped,
  environmental A comp fit div fit_del div_del parents offspring = Ok (kept, []) /\ length kept = length parents /\
  shrinks comp update (length parents) (div (fit (parents ++ offspring))) kept /\
  Permutation (map solution (parents ++ offspring)) (map solution kept ++ dropped).
Proof.
  unfold environmental. set (m := div (fit (parents ++ offspring))).
  assert (Lm : length m = length parents + length offspring) by (unfold m; rewrite !keeps_length, app_length by auto; auto).
  destruct (env_loop_ok (length parents) (length m) m) as (out & d & E & Hs & Ho & Pd); [lia|]. rewrite E. cbn [rbind].
  exists out, d. split; auto. split; [apply Ho; lia|]. split; auto. eapply Permutation_trans; [apply merged_perm|auto].
Qed.
End Repl.

(** when the updates do nothing, removing the worst one by one keeps the best ones *)
Lemma shrinks_best {A} (comp : A -> A -> bool) sz pop out : shrinks comp (fun l _ => l) sz pop out -> sz <= length pop -> best_n comp pop sz out.
Proof.
  induction 1 as [pop Hl|pop w rest out Hl [Hw1 Hw2] Hp Hs IH]; intros Hz.
  - split; [lia|]. exists []. rewrite app_nil_r. split; auto; intros k d _ [].
  - assert (Lr : length pop = S (length rest)) by (apply Permutation_length in Hp; auto).
    destruct IH as [L (d & Pd & Hd)]; [lia|]. split; auto. exists (w :: d). split.
    + eapply Permutation_trans; [apply Hp|]. eapply Permutation_trans; [constructor; apply Pd|apply Permutation_middle].
    + intros k x Hk [<-|Hx]; [|auto]. apply Hw2. eapply Permutation_in; [apply Permutation_sym, Hp|]. right. eapply Permutation_in; [apply Permutation_sym, Pd|]. apply in_app_iff; auto.
Qed.

(** ** selectors *)
Lemma In_firstn' {T} (l : list T) k x : In x (firstn k l) -> In x l.
Proof. intros H. rewrite <- (firstn_skipn k l). apply in_app_iff. auto. Qed.
Fixpoint some_values {T} (l : list (option T)) : list T := match l with [] => [] | Some x :: r => x :: some_values r | None :: r => some_values r end.
Lemma some_values_map {T} (l : list T) : some_values (map Some l) = l.
Proof. induction l as [|x l IH]; cbn; congruence. Qed.
Lemma Permutation_map_inv_some {T} (l l' : list T) : Permutation (map Some l) (map Some l') -> Permutation l l'.
Proof.
  intros H. rewrite <- (some_values_map l), <- (some_values_map l'). induction H as [|x l0 l1 H IH|x y l0|]; cbn; auto.
  - destruct x; auto.
  - destruct x, y; auto. constructor.
  - eapply Permutation_trans; eauto.
Qed.
Section MoSelect.
Variable A : Type.
Variable comp : A -> A -> bool.
Hypothesis Hswo : strict_weak_order comp.

Lemma wins_trans pop ps x y : wins_among comp pop ps x -> comp x y = true -> forall p, nth_error pop p = Some y -> wins_among comp pop (p :: ps) y.
Proof.
  intros [(q & Hq & Ex) H] Hxy p Hp. split.
  - exists p. split; [left|]; auto.
  - intros r z [<-|Hr] Hz.
    + assert (z = y) as -> by congruence. apply (swo_irrefl _ Hswo).
    + destruct (comp y z) eqn:E; auto. rewrite <- (H r z Hr Hz). symmetry. eapply swo_trans; eauto.
Qed.
Lemma mo_det_loop_ok pop : pop <> [] -> forall n ps best ds, wins_among comp pop ps best -> n <= length ds ->
  exists x, mo_det_loop A comp pop n best ds = Ok (x, skipn n ds) /\ wins_among comp pop (rev (contestants pop n ds) ++ ps) x.
Proof.
  intros Hn. induction n as [|n IH]; intros ps best ds Hb Hl; cbn [mo_det_loop skipn]; [eauto|].
  destruct ds as [|d ds]; [cbn in Hl; lia|]. cbn [draw rbind].
  destruct (nth_error_in_some pop (d mod length pop)) as [c Hc]; [apply Nat.mod_upper_bound; destruct pop; cbn; [congruence|lia]|].
  rewrite Hc. cbn [of_opt rbind]. unfold contestants in *. cbn [firstn map rev].
  destruct (IH (d mod length pop :: ps) (if comp best c then c else best) ds) as (x & Ex & Hx).
  - destruct (comp best c) eqn:Ec; [eapply wins_trans; eauto|]. destruct Hb as [(q & Hq & Eq) H]. split; [exists q; split; [right|]; auto|].
    intros p y [<-|Hp] Hy; [|eauto]. congruence.
  - cbn in Hl. lia.
  - exists x. split; auto. rewrite <- app_assoc. cbn. auto.
Qed.
Lemma mo_det_ok pop t ds : pop <> [] -> 0 < t -> t <= length ds ->
  exists x, mo_det_tournament A comp pop t ds = Ok (x, skipn t ds) /\ wins_among comp pop (contestants pop t ds) x.
Proof.
  intros Hn Ht Hl. destruct ds as [|d ds]; [cbn in Hl; lia|]. destruct t as [|t]; [lia|]. unfold mo_det_tournament. cbn [draw rbind skipn].
  destruct (nth_error_in_some pop (d mod length pop)) as [c Hc]; [apply Nat.mod_upper_bound; destruct pop; cbn; [congruence|lia]|].
  rewrite Hc. cbn [of_opt rbind]. replace (S t - 1) with t by lia.
  destruct (mo_det_loop_ok pop Hn t [d mod length pop] c ds) as (x & E & H1 & H2).
  - split; [exists (d mod length pop); split; [left; auto|auto]|]. intros p y [<-|[]] Hy. assert (y = c) as -> by congruence. apply (swo_irrefl _ Hswo).
  - cbn in Hl. lia.
  - exists x. split; auto. unfold contestants in *. cbn [firstn map].
    assert (I : forall p, In p (rev (map (fun d => d mod length pop) (firstn t ds)) ++ [d mod length pop]) <-> In p (d mod length pop :: map (fun d => d mod length pop) (firstn t ds))).
    { intros p. rewrite in_app_iff, <- in_rev. cbn. tauto. }
    destruct H1 as (p & Hp & Ep). split; [exists p; split; [apply I|]; auto|]. intros q y Hq Hy. apply (H2 q y); auto. apply I. auto.
Qed.
Lemma mo_stoch_ok pop certain d1 d2 d3 ds : pop <> [] -> exists a b, nth_error pop (d1 mod length pop) = Some a /\ nth_error pop (d2 mod length pop) = Some b /\
  exists x, mo_stoch_tournament A comp pop certain (d1 :: d2 :: d3 :: ds) = Ok (x, ds) /\
  ((x = a /\ comp a b = false) \/ (x = b /\ comp b a = false) \/ (certain || Nat.odd d3 = false /\ (x = a \/ x = b))) /\
  (certain || Nat.odd d3 = false -> (x = a /\ comp b a = false) \/ (x = b /\ comp a b = false)).
Proof.
  intros Hn. assert (Hm : forall d, d mod length pop < length pop) by (intros; apply Nat.mod_upper_bound; destruct pop; cbn; [congruence|lia]).
  destruct (nth_error_in_some pop _ (Hm d1)) as [a Ha]. destruct (nth_error_in_some pop _ (Hm d2)) as [b Hb]. exists a, b. split; auto. split; auto.
  unfold mo_stoch_tournament, the_flip. cbn [draw rbind draw_flip]. rewrite Ha, Hb. cbn [of_opt rbind]. eexists. split; [reflexivity|].
  assert (As : comp a b = true -> comp b a = false).
  { intros H. destruct (comp b a) eqn:E; auto. rewrite <- (swo_irrefl _ Hswo a). symmetry. eapply swo_trans; eauto. }
  destruct (comp a b) eqn:Eab, (certain || Nat.odd d3); auto 8; intuition discriminate.
Qed.
Lemma pick_all_ok (arch : list A) idx : (forall i, In i idx -> i < length arch) -> exists out, pick_all A arch idx = Ok out /\
  map (nth_error arch) idx = map Some out.
Proof.
  induction idx as [|i idx IH]; intros H; cbn; [exists []; auto|]. destruct (nth_error_in_some arch i) as [x Hx]; [apply H; left; auto|]. rewrite Hx. cbn [of_opt rbind].
  destruct IH as (out & E & M); [intros; apply H; right; auto|]. rewrite E. cbn [rbind]. exists (x :: out). cbn. rewrite M. auto.
Qed.
Lemma cyclic_ok (arch : list A) : arch <> [] -> forall k i, exists out, cyclic A arch i k = Ok out /\ length out = k /\
  forall j, j < k -> nth_error out j = nth_error arch ((i + j) mod length arch).
Proof.
  intros Hn. assert (Ha : 0 < length arch) by (destruct arch; cbn; [congruence|lia]).
  induction k as [|k IH]; intros i; cbn [cyclic]; [exists []; repeat split; auto; lia|].
  destruct (Nat.eqb_spec (length arch) 0); [lia|]. destruct (nth_error_in_some arch (i mod length arch)) as [x Hx]; [apply Nat.mod_upper_bound; lia|]. rewrite Hx. cbn [of_opt rbind].
  destruct (IH (S i)) as (out & E & L & H). rewrite E. cbn [rbind]. exists (x :: out). cbn. split; auto. split; [lia|].
  intros [|j] Hj; cbn; [rewrite Nat.add_0_r; auto|]. rewrite H by lia. f_equal. f_equal. lia.
Qed.
Lemma map_nth_seq (arch : list A) : map (nth_error arch) (seq 0 (length arch)) = map Some arch.
Proof.
  apply nth_error_ext. intros i. rewrite !nth_error_map'. destruct (Nat.lt_ge_cases i (length arch)).
  - rewrite nth_error_seq' by auto. cbn. destruct (nth_error_in_some arch i) as [x ->]; auto.
  - rewrite !nth_error_ge; rewrite ?seq_length; auto.
Qed.
Lemma det_archive_ok shuf arch mx mn dest : (forall l, Permutation l (shuf l)) -> mn <= mx -> (arch <> [] \/ mn = 0) ->
  exists out, det_archive_select A shuf arch mx mn dest = Ok out /\
  (mn <= length out <= mx) /\ (forall x, In x out -> In x arch) /\
  (mn <= length arch <= mx -> out = arch) /\
  (mx < length arch -> length out = mx /\ sub_population arch out) /\
  (length arch < mn -> forall j, j < length out -> nth_error out j = nth_error arch (j mod length arch)).
Proof.
  intros Hs Hm Hn. unfold det_archive_select. destruct (Nat.ltb_spec mx mn); [lia|].
  destruct (Nat.leb_spec mn (length arch)), (Nat.leb_spec (length arch) mx); cbn [andb].
  - exists arch. repeat split; auto; lia.
  - destruct (Nat.ltb_spec mx (length arch)); [|lia]. set (idx := shuf (seq 0 (length arch))).
    assert (Pi : Permutation (seq 0 (length arch)) idx) by apply Hs.
    assert (Hi : forall i, In i idx -> i < length arch) by (intros i Hi; eapply Permutation_in in Hi; [|apply Permutation_sym, Pi]; apply in_seq in Hi; lia).
    assert (Li : length idx = length arch) by (rewrite <- (Permutation_length Pi), seq_length; auto).
    destruct (pick_all_ok arch (firstn mx idx)) as (out & E & M); [intros i H'; apply Hi; eapply In_firstn'; eauto|].
    destruct (pick_all_ok arch (skipn mx idx)) as (out' & E' & M'); [intros i H'; apply Hi; rewrite <- (firstn_skipn mx idx); apply in_app_iff; auto|].
    assert (Lo : length out = mx) by (apply (f_equal (@length _)) in M; rewrite !map_length, firstn_length in M; lia).
    assert (Po : Permutation arch (out ++ out')).
    { apply (Permutation_map_inv_some arch (out ++ out')). rewrite <- map_nth_seq, map_app, <- M, <- M', <- map_app, firstn_skipn. apply Permutation_map. auto. }
    exists out. split; auto. split; [lia|]. split; [intros x Hx; eapply Permutation_in; [apply Permutation_sym, Po|apply in_app_iff; auto]|].
    split; [lia|]. split; [intros _; split; auto; exists out'; auto|lia].
  - destruct (Nat.ltb_spec mx (length arch)); [lia|]. destruct (cyclic_ok arch ltac:(destruct Hn; [auto|lia]) mn 0) as (out & E & L & H').
    exists out. split; auto. split; [lia|]. split; [|split; [lia|split; [lia|]]].
    + intros x Hx. apply In_nth_error in Hx as [j Hj]. rewrite H' in Hj by (apply nth_error_lt in Hj; lia). eapply nth_error_In; eauto.
    + intros _ j Hj. rewrite H' by lia. auto.
  - lia.
Qed.
End MoSelect.
