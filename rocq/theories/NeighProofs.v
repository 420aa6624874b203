(** Proofs about explorations and moves (C34, C35). *)
From Coq Require Import List Arith Lia Bool NArith Permutation.
From Verif Require Import Outcome Lib BitModel BitProofs PermModel PermProofs ArchProofs DomModel DomProofs HvProofs NeighModel NeighSpec.
Import ListNotations.
Open Scope nat_scope.

(** ** explorations *)
Lemma order_continue n : 0 < n -> forall fuel cur ds, cur < n -> n - 1 - cur <= fuel -> continue (order_nh n) fuel cur ds = Ok (seq (S cur) (n - 1 - cur), n - 1, ds).
Proof.
  intros Hn. induction fuel as [|f IH]; intros cur ds Hc Hf; cbn [continue]; cbn [order_nh i_cont i_next]; (destruct (Nat.eqb_spec n 0); [lia|]);
    destruct (Nat.ltb_spec cur (n - 1)); try lia.
  - replace (n - 1 - cur) with 0 by lia. cbn. do 3 f_equal; lia.
  - cbn [rbind]. rewrite IH by lia. cbn [rbind]. replace (n - 1 - cur) with (S (n - 1 - S cur)) by lia. auto.
  - replace (n - 1 - cur) with 0 by lia. cbn. do 3 f_equal; lia.
Qed.
Theorem order_explores n s ds : 0 < n -> explore (order_nh n) n s ds = Ok (seq 0 n, n - 1, ds).
Proof.
  intros Hn. unfold explore. cbn [order_nh i_init rbind]. fold (order_nh n). rewrite order_continue by lia. cbn [rbind].
  replace n with (S (n - 1 - 0)) at 3 by lia. auto.
Qed.

Lemma with_repl_continue n mx : 0 < n -> 0 < mx -> forall fuel k ds, k <= mx -> mx - k <= fuel -> mx - k <= length ds ->
  exists xs ds', continue (with_repl_nh n mx) fuel k ds = Ok (xs, mx, ds') /\ length xs = mx - k /\ Forall (fun i => i < n) xs.
Proof.
  intros Hn Hm. induction fuel as [|f IH]; intros k ds Hk Hf Hd; cbn [continue]; cbn [with_repl_nh i_cont i_next]; (destruct (Nat.eqb_spec mx 0); [lia|]);
    (destruct (Nat.ltb_spec 0 n); [|lia]); cbn [andb]; destruct (Nat.ltb_spec k mx); try lia.
  - exists [], ds. replace k with mx by lia. split; auto. split; [cbn; lia|constructor].
  - destruct (Nat.eqb_spec n 0); [lia|]. destruct ds as [|d ds]; [cbn in Hd; lia|]. cbn [draw rbind]. cbn in Hd.
    destruct (IH (S k) ds) as (xs & ds' & E & L & F); try lia. rewrite E. cbn [rbind]. exists (d mod n :: xs), ds'. split; auto. split; [cbn; lia|].
    constructor; auto. apply Nat.mod_upper_bound. lia.
  - exists [], ds. replace k with mx by lia. split; auto. split; [cbn; lia|constructor].
Qed.
Theorem with_repl_explores n mx s ds : 0 < n -> 0 < mx -> mx <= length ds ->
  exists xs ds', explore (with_repl_nh n mx) mx s ds = Ok (xs, mx, ds') /\ length xs = mx /\ Forall (fun i => i < n) xs.
Proof.
  intros Hn Hm Hd. unfold explore. cbn [with_repl_nh i_init]. destruct (Nat.eqb_spec n 0); [lia|]. destruct ds as [|d ds]; [cbn in Hd; lia|]. cbn [draw rbind].
  fold (with_repl_nh n mx). cbn in Hd. destruct (with_repl_continue n mx Hn Hm mx 1 ds) as (xs & ds' & E & L & F); try lia. rewrite E. cbn [rbind].
  exists (d mod n :: xs), ds'. split; auto. split; [cbn; lia|]. constructor; auto. apply Nat.mod_upper_bound. lia.
Qed.

Definition wr_ok (n : nat) (s : wr_state) : Prop := Permutation (indexVector s) (seq 0 n) /\ maxIndex s <= n.
Lemma wr_draw_ok n s d ds : wr_ok n s -> 0 < maxIndex s -> exists s' key, wr_draw s (d :: ds) = Ok (s', key, ds) /\ wr_ok n s' /\
  maxIndex s' = maxIndex s - 1 /\ nth_error (indexVector s) (d mod maxIndex s) = Some key /\ nth_error (indexVector s') (maxIndex s') = Some key /\
  Permutation (firstn (maxIndex s) (indexVector s)) (key :: firstn (maxIndex s') (indexVector s')).
Proof.
  intros [P M] H0. assert (L : length (indexVector s) = n) by (rewrite (Permutation_length P), seq_length; auto).
  assert (Hd : d mod maxIndex s < maxIndex s) by (apply Nat.mod_upper_bound; lia).
  unfold wr_draw. destruct (Nat.eqb_spec (maxIndex s) 0); [lia|]. cbn [draw rbind].
  destruct (swap_out (indexVector s) (d mod maxIndex s) (maxIndex s)) as (l & key & E & K & L' & P' & S' & N'); try lia. rewrite K. cbn [of_opt rbind]. rewrite E. cbn [of_opt rbind].
  eexists _, key. split; [reflexivity|]. cbn [maxIndex indexVector]. split; [|split; [auto|split; [auto|split]]]; auto.
  - split; cbn; [|lia]. eapply Permutation_trans; [eapply swap_at_perm; eauto|auto].
  - rewrite (swap_at_nth_error _ _ _ _ E), Nat.eqb_refl. auto.
Qed.
Lemma wr_continue n : forall fuel s ds, wr_ok n s -> maxIndex s <= fuel -> maxIndex s <= length ds ->
  exists xs s' ds', continue (without_repl_nh n) fuel s ds = Ok (xs, s', ds') /\ Permutation xs (firstn (maxIndex s) (indexVector s)) /\ wr_ok n s' /\ maxIndex s' = 0.
Proof.
  induction fuel as [|f IH]; intros s ds W Hf Hd; cbn [continue]; cbn [without_repl_nh i_cont i_next]; destruct (Nat.ltb_spec 0 (maxIndex s)); try lia.
  - exists [], s, ds. replace (maxIndex s) with 0 by lia. auto.
  - destruct ds as [|d ds]; [cbn in Hd; lia|]. cbn in Hd. destruct (wr_draw_ok n s d ds W) as (s' & key & E & W' & M' & _ & _ & P'); auto. rewrite E. cbn [rbind].
    destruct (IH s' ds) as (xs & s'' & ds' & E' & P'' & W'' & M''); auto; try lia. rewrite E'. cbn [rbind]. exists (key :: xs), s'', ds'. split; auto. split; auto.
    eapply Permutation_trans; [|apply Permutation_sym, P']. auto.
  - exists [], s, ds. replace (maxIndex s) with 0 by lia. auto.
Qed.
Lemma wr_start_ok n : wr_ok n (wr_start n). Proof. split; cbn; auto. lia. Qed.
Lemma wr_reachable n s : 0 < n -> reachable (without_repl_nh n) (wr_start n) s -> wr_ok n s.
Proof.
  intros Hn R. induction R as [|s ds s' x ds' R IH E|s ds s' x ds' R IH C E].
  - apply wr_start_ok.
  - cbn [without_repl_nh i_init] in E. assert (W : wr_ok n {| maxIndex := n; indexVector := indexVector s |}) by (split; cbn; [apply IH|lia]).
    destruct ds as [|d ds]; [unfold wr_draw in E; cbn in E; destruct n; discriminate|]. destruct (wr_draw_ok n _ d ds W Hn) as (s1 & k & E1 & W1 & _). rewrite E1 in E. inversion E; subst; auto.
  - cbn [without_repl_nh i_next i_cont] in E, C. apply Nat.ltb_lt in C.
    destruct ds as [|d ds]; [unfold wr_draw in E; cbn in E; destruct (maxIndex s); discriminate|]. destruct (wr_draw_ok n _ d ds IH C) as (s1 & k & E1 & W1 & _). rewrite E1 in E. inversion E; subst; auto.
Qed.
Theorem without_repl_explores n s ds : 0 < n -> reachable (without_repl_nh n) (wr_start n) s -> n <= length ds ->
  exists xs s' ds', explore (without_repl_nh n) n s ds = Ok (xs, s', ds') /\ Permutation xs (seq 0 n).
Proof.
  intros Hn R Hd. apply wr_reachable in R; auto. unfold explore. cbn [without_repl_nh i_init]. fold (without_repl_nh n).
  assert (W : wr_ok n {| maxIndex := n; indexVector := indexVector s |}) by (split; cbn; [apply R|lia]).
  destruct ds as [|d ds]; [cbn in Hd; lia|]. cbn in Hd. destruct (wr_draw_ok n _ d ds W Hn) as (s1 & k & E1 & W1 & M1 & _ & _ & P1). rewrite E1. cbn [rbind]. cbn [maxIndex indexVector] in M1, P1.
  destruct (wr_continue n n s1 ds) as (xs & s2 & ds' & E2 & P2 & _); auto; try lia. rewrite E2. cbn [rbind]. exists (k :: xs), s2, ds'. split; auto.
  eapply Permutation_trans; [|apply R]. eapply Permutation_trans; [|rewrite <- (firstn_all2 (n := n) (indexVector s)); [apply Permutation_sym, P1|rewrite (Permutation_length (proj1 R)), seq_length; lia]]. auto.
Qed.
(** every order of visit occurs *)
Lemma wr_continue_all n : forall fuel s xs, wr_ok n s -> maxIndex s <= fuel -> Permutation xs (firstn (maxIndex s) (indexVector s)) ->
  exists ds s', continue (without_repl_nh n) fuel s ds = Ok (xs, s', []).
Proof.
  induction fuel as [|f IH]; intros s xs W Hf P; cbn [continue]; cbn [without_repl_nh i_cont i_next]; destruct (Nat.ltb_spec 0 (maxIndex s)) as [H0|H0]; try lia.
  - exists [], s. replace (maxIndex s) with 0 in P by lia. apply Permutation_sym, Permutation_nil in P. subst. auto.
  - assert (L : length xs = maxIndex s).
    { rewrite (Permutation_length P), firstn_length, (Permutation_length (proj1 W)), seq_length. destruct W; lia. }
    destruct xs as [|x xs]; [cbn in L; lia|].
    assert (Ix : In x (firstn (maxIndex s) (indexVector s))) by (eapply Permutation_in; [apply P|cbn; auto]). apply In_first in Ix as (i & Hi & Ex).
    destruct (wr_draw_ok n s i [] W H0) as (s' & key & E & W' & M' & K & _ & P'). rewrite Nat.mod_small in K by auto. assert (key = x) as -> by congruence.
    assert (P2 : Permutation xs (firstn (maxIndex s') (indexVector s'))) by (apply (Permutation_cons_inv (a := x)); eapply Permutation_trans; eauto).
    destruct (IH s' xs W') as (ds & s2 & E2); auto; [lia|]. exists (i :: ds), s2.
    assert (E' : wr_draw s (i :: ds) = Ok (s', x, ds)).
    { unfold wr_draw in *. destruct (maxIndex s =? 0); [discriminate|]. cbn [draw rbind] in *. destruct (nth_error (indexVector s) (i mod maxIndex s)); [|discriminate]. cbn [of_opt rbind] in *.
      destruct (swap_at (indexVector s) (i mod maxIndex s) (maxIndex s - 1)); [|discriminate]. cbn [of_opt rbind] in *. congruence. }
    rewrite E'. cbn [rbind]. rewrite E2. auto.
  - exists [], s. replace (maxIndex s) with 0 in P by lia. apply Permutation_sym, Permutation_nil in P. subst. auto.
Qed.
Theorem without_repl_any_order n s xs : 0 < n -> reachable (without_repl_nh n) (wr_start n) s -> Permutation xs (seq 0 n) ->
  exists ds s', explore (without_repl_nh n) n s ds = Ok (xs, s', []).
Proof.
  intros Hn R P. apply wr_reachable in R; auto. assert (W : wr_ok n {| maxIndex := n; indexVector := indexVector s |}) by (split; cbn; [apply R|lia]).
  assert (P1 : Permutation xs (firstn n (indexVector s))).
  { rewrite firstn_all2 by (rewrite (Permutation_length (proj1 R)), seq_length; lia). eapply Permutation_trans; [apply P|apply Permutation_sym, R]. }
  destruct (wr_continue_all n n _ xs W) as (ds & s' & E); auto. destruct n as [|m]; [lia|]. cbn [continue] in E. cbn [without_repl_nh i_cont i_next maxIndex] in E.
  change (0 <? S m) with true in E. cbv iota in E. exists ds, s'. unfold explore. cbn [without_repl_nh i_init]. apply rbind_ok in E as (((s1 & k) & ds1) & E1 & E).
  rewrite E1. cbn [rbind]. apply rbind_ok in E as (((xs1 & s2) & ds2) & E2 & E). 
  assert (E3 : continue (without_repl_nh (S m)) (S m) s1 ds1 = Ok (xs1, s2, ds2)).
  { clear -E2. revert s1 ds1 xs1 s2 ds2 E2. generalize (without_repl_nh (S m)) as it. intros it. induction m as [|m IH]; intros s1 ds1 xs1 s2 ds2 E2.
    - cbn [continue] in *. destruct (i_cont it s1); [discriminate|auto].
    - cbn [continue] in E2. change (continue it (S (S m)) s1 ds1) with (if i_cont it s1 then let! (s', x, ds') := i_next it s1 ds1 in let! (xs, s'', ds'') := continue it (S m) s' ds' in Ok (x :: xs, s'', ds'') else Ok ([], s1, ds1)).
      destruct (i_cont it s1); auto. destruct (i_next it s1 ds1) as [((s3 & x) & ds3)| | |]; try discriminate. cbn [rbind] in *.
      apply rbind_ok in E2 as (((xs4 & s4) & ds4) & E4 & E2). rewrite (IH _ _ _ _ _ E4). auto. }
  rewrite E3. cbn [rbind]. inversion E; subst. auto.
Qed.
(** position() is the last index given *)
Theorem without_repl_position n s ds s' x ds' : 0 < n -> reachable (without_repl_nh n) (wr_start n) s ->
  (i_init (without_repl_nh n) s ds = Ok (s', x, ds') \/ (i_cont (without_repl_nh n) s = true /\ i_next (without_repl_nh n) s ds = Ok (s', x, ds'))) ->
  wr_position s' = Ok x.
Proof.
  intros Hn R H. apply wr_reachable in R; auto. unfold wr_position.
  assert (G : exists s0, wr_ok n s0 /\ 0 < maxIndex s0 /\ wr_draw s0 ds = Ok (s', x, ds')).
  { destruct H as [H|[C H]]; cbn [without_repl_nh i_init i_next i_cont] in *.
    - exists {| maxIndex := n; indexVector := indexVector s |}. split; auto. split; cbn; [apply R|lia].
    - exists s. apply Nat.ltb_lt in C. auto. }
  destruct G as (s0 & W & H0 & E). destruct ds as [|d ds]; [unfold wr_draw in E; destruct (maxIndex s0); discriminate|].
  destruct (wr_draw_ok n s0 d ds W H0) as (s1 & k & E1 & _ & _ & _ & K & _). rewrite E1 in E. inversion E; subst. rewrite K. auto.
Qed.

(** ** pairs *)
Definition rest (n i j : nat) : list (nat * nat) :=
  map (pair i) (seq (j + 1) (n - 1 - j)) ++ flat_map (fun k => map (pair k) (seq (k + 1) (n - (k + 1)))) (seq (S i) (n - 2 - i)).
Lemma pairs_continue n : forall fuel i j ds, i < j < n -> length (rest n i j) <= fuel ->
  exists s', continue (pairs_nh n) fuel (i, j) ds = Ok (rest n i j, s', ds).
Proof.
  induction fuel as [|f IH]; intros i j ds H Hf; cbn [continue]; cbn [pairs_nh i_cont i_next fst snd]; destruct (Nat.eqb_spec i (n - 2)) as [Hi|Hi], (Nat.eqb_spec j (n - 1)) as [Hj|Hj]; cbn [andb negb]; try lia.
  - exists (i, j). unfold rest. replace (n - 1 - j) with 0 by lia. replace (n - 2 - i) with 0 by lia. auto.
  - exfalso. unfold rest in Hf. replace (n - 2 - i) with (S (n - 3 - i)) in Hf by lia. rewrite app_length in Hf. cbn [seq flat_map] in Hf. rewrite !app_length, !map_length, !seq_length in Hf. lia.
  - exfalso. unfold rest in Hf. rewrite app_length, map_length, seq_length in Hf. lia.
  - exists (i, j). unfold rest. replace (n - 1 - j) with 0 by lia. replace (n - 2 - i) with 0 by lia. auto.
  - cbn [rbind]. fold (pairs_nh n).
    assert (E : rest n i j = (S i, S (S i)) :: rest n (S i) (S (S i))).
    { unfold rest. replace (n - 1 - j) with 0 by lia. replace (n - 2 - i) with (S (n - 2 - S i)) by lia. cbn [seq map app flat_map]. replace (n - (S i + 1)) with (S (n - 1 - S (S i))) by lia.
      cbn [seq map app]. rewrite !Nat.add_1_r. auto. }
    destruct (IH (S i) (S (S i)) ds) as [s' E']; [lia|rewrite E in Hf; cbn in Hf; lia|]. rewrite E'. cbn [rbind]. exists s'. rewrite E. auto.
  - cbn [rbind]. fold (pairs_nh n).
    assert (E : rest n i j = (i, S j) :: rest n i (S j)).
    { unfold rest. replace (n - 1 - j) with (S (n - 1 - S j)) by lia. cbn [seq map app]. rewrite !Nat.add_1_r. auto. }
    destruct (IH i (S j) ds) as [s' E']; [lia|rewrite E in Hf; cbn in Hf; lia|]. rewrite E'. cbn [rbind]. exists s'. rewrite E. auto.
Qed.

Theorem pairs_explores n s ds : 2 <= n -> exists l s', explore (pairs_nh n) (n * n) s ds = Ok (l, s', ds) /\ all_pairs_once n l.
Proof.
  intros Hn. unfold explore. cbn [pairs_nh i_init rbind]. fold (pairs_nh n).
  assert (E : pairs n = (0, 1) :: rest n 0 1).
  { unfold pairs, rest. replace (n - 1) with (S (n - 2)) by lia. cbn [seq flat_map]. replace (n - (0 + 1)) with (S (n - 2)) by lia. cbn [seq map app]. rewrite !Nat.sub_0_r.
    replace (S (n - 2) - 1) with (n - 2) by lia. auto. }
  assert (L : length (pairs n) <= n * n).
  { rewrite <- (seq_length n 0) at 2 3. rewrite <- prod_length. apply NoDup_incl_length; [apply pairs_NoDup|]. intros [i j] Hij. apply pairs_In in Hij. apply in_prod; apply in_seq; lia. }
  destruct (pairs_continue n (n * n) 0 1 ds) as [s' E']; [lia|rewrite E in L; cbn in L; lia|]. rewrite E'. cbn [rbind]. exists (pairs n), s'. split; [rewrite E; auto|].
  split; [apply pairs_NoDup|]. intros i j. apply pairs_In.
Qed.

(** ** moves *)
Lemma swap_move_ok {A} i j (sol : list A) : i < length sol -> j < length sol -> exists sol', swap_move A (i, j) sol = Ok sol' /\ exchanged i j sol sol' /\ Permutation sol' sol /\ swap_move A (i, j) sol' = Ok sol.
Proof.
  intros Hi Hj. unfold swap_move. cbn [fst snd]. destruct (swap_at_total sol i j Hi Hj) as [sol' E]. pose proof (swap_at_nth_error _ _ _ _ E) as N. pose proof (swap_at_length _ _ _ _ E) as L.
  exists sol'. rewrite E. split; auto. split; [|split; [eapply swap_at_perm; eauto|]].
  - split; auto. rewrite !N. rewrite !Nat.eqb_refl. split; [destruct (Nat.eqb_spec i j); subst; auto|]. split; auto. intros k H1 H2. rewrite N. destruct (Nat.eqb_spec k j); [lia|]. destruct (Nat.eqb_spec k i); [lia|auto].
  - destruct (swap_at_total sol' i j) as [s2 E2]; try lia. rewrite E2. cbn. f_equal. pose proof (swap_at_nth_error _ _ _ _ E2) as N2. apply nth_error_ext. intros k. rewrite N2, !N.
    rewrite !Nat.eqb_refl. destruct (Nat.eqb_spec k j) as [->|]; [destruct (Nat.eqb_spec i j); subst; auto|]. destruct (Nat.eqb_spec k i) as [->|]; auto.
Qed.
Lemma two_opt_loop_ok {A} f s (sol0 : list A) : f < s -> s < length sol0 -> forall cnt i sol, i + cnt = (s - f + 1) / 2 -> length sol = length sol0 ->
  (forall k, nth_error sol k = if ((f <=? k) && (k <? f + i)) || ((s <? k + i) && (k <=? s)) then nth_error sol0 (f + s - k) else nth_error sol0 k) ->
  exists sol', two_opt_loop A i cnt f s sol = Ok sol' /\ length sol' = length sol0 /\ (forall k, nth_error sol' k = if (f <=? k) && (k <=? s) then nth_error sol0 (f + s - k) else nth_error sol0 k).
Proof.
  intros Hfs Hs. assert (Half : 2 * ((s - f + 1) / 2) <= s - f + 1 < 2 * ((s - f + 1) / 2) + 2).
  { pose proof (Nat.div_mod (s - f + 1) 2). pose proof (Nat.mod_upper_bound (s - f + 1) 2). lia. }
  induction cnt as [|c IH]; intros i sol Hi L N; cbn [two_opt_loop].
  - exists sol. split; auto. split; auto. intros k. rewrite N. rewrite Nat.add_0_r in Hi.
    destruct (Nat.leb_spec f k), (Nat.ltb_spec k (f + i)), (Nat.ltb_spec s (k + i)), (Nat.leb_spec k s); cbn [andb orb]; auto; try lia. f_equal. lia.
  - destruct (swap_at_total sol (f + i) (s - i)) as [s1 E1]; try lia. rewrite E1. cbn [of_opt rbind]. pose proof (swap_at_nth_error _ _ _ _ E1) as N1. pose proof (swap_at_length _ _ _ _ E1) as L1.
    apply IH; try lia. intros k. rewrite N1, !N.
    destruct (Nat.eqb_spec k (s - i)), (Nat.eqb_spec k (f + i)); subst;
      repeat match goal with |- context [?a <=? ?b] => destruct (Nat.leb_spec a b) | |- context [?a <? ?b] => destruct (Nat.ltb_spec a b) end; cbn [andb orb]; auto; try lia; try (f_equal; lia).
Qed.
Lemma two_opt_move_ok {A} f s (sol : list A) : f < s -> s < length sol -> exists sol', two_opt_move A (f, s) sol = Ok sol' /\ reversed f s sol sol' /\ Permutation sol' sol /\ two_opt_move A (f, s) sol' = Ok sol.
Proof.
  intros Hfs Hs. unfold two_opt_move. cbn [fst snd].
  assert (Go : forall sol : list A, s < length sol -> exists sol', two_opt_loop A 0 ((s - f + 1) / 2) f s sol = Ok sol' /\ length sol' = length sol /\
     (forall k, nth_error sol' k = if (f <=? k) && (k <=? s) then nth_error sol (f + s - k) else nth_error sol k)).
  { intros l Hl. apply two_opt_loop_ok; auto. intros k. destruct (Nat.leb_spec f k), (Nat.ltb_spec k (f + 0)), (Nat.ltb_spec s (k + 0)), (Nat.leb_spec k s); cbn [andb orb]; auto; lia. }
  destruct (Go sol Hs) as (sol' & E & L & N). exists sol'. split; auto.
  assert (Er : sol' = reverse_range f (S s) sol).
  { apply nth_error_ext. intros k. destruct (reverse_range_spec f (S s) sol) as [_ R]; try lia. rewrite N, R.
    destruct (Nat.leb_spec f k), (Nat.leb_spec k s), (Nat.ltb_spec k (S s)); cbn [andb]; auto; try lia; f_equal; lia. }
  assert (Rv : reversed f s sol sol').
  { exists (firstn f sol), (firstn (S s - f) (skipn f sol)), (skipn (S s) sol). split; [|split; [exact Er|]].
    - rewrite <- (firstn_skipn f sol) at 1. f_equal. rewrite <- (firstn_skipn (S s - f) (skipn f sol)) at 1. f_equal. rewrite skipn_skipn'. f_equal. lia.
    - rewrite app_length, !firstn_length, skipn_length. lia. }
  split; auto. split.
  - destruct Rv as (a & b & c & -> & -> & _). apply Permutation_app_head, Permutation_app_tail, Permutation_sym, Permutation_rev.
  - destruct (Go sol') as (sol2 & E2 & L2 & N2); [lia|]. rewrite E2. f_equal. apply nth_error_ext. intros k. rewrite N2, !N.
    destruct (Nat.leb_spec f k), (Nat.leb_spec k s); cbn [andb]; auto. destruct (Nat.leb_spec f (f + s - k)), (Nat.leb_spec (f + s - k) s); cbn [andb]; try lia. f_equal. lia.
Qed.

Lemma upd_mid {A} (a c : list A) y x : upd (a ++ y :: c) (length a) x = Some (a ++ x :: c).
Proof. rewrite upd_set by (rewrite app_length; cbn; lia). f_equal. apply set_mid. Qed.
Lemma nth_mid {A} (a c : list A) y : nth_error (a ++ y :: c) (length a) = Some y.
Proof. rewrite nth_error_app2, Nat.sub_diag by lia. auto. Qed.
Lemma shift_left_ok {A} : forall (b : list A) a y c, exists z, shift_left A (length a) (length b) (a ++ y :: b ++ c) = Ok (a ++ b ++ z :: c).
Proof.
  induction b as [|x b IH]; intros a y c; cbn [length shift_left]; [exists y; auto|].
  assert (E : nth_error (a ++ y :: (x :: b) ++ c) (S (length a)) = Some x) by (rewrite nth_error_app2 by lia; replace (S (length a) - length a) with 1 by lia; auto).
  rewrite E. cbn [of_opt rbind]. rewrite upd_mid. cbn [of_opt rbind]. destruct (IH (a ++ [x]) x c) as [z Ez]. exists z.
  rewrite app_length, Nat.add_1_r in Ez. rewrite <- app_assoc in Ez. cbn [app] in *. rewrite Ez, <- app_assoc. auto.
Qed.
Lemma shift_right_ok {A} : forall (b : list A) a y c, exists z, shift_right A (length a + length b) (length b) (a ++ b ++ y :: c) = Ok (a ++ z :: b ++ c).
Proof.
  induction b as [|x b IH] using rev_ind; intros a y c; [cbn; exists y; auto|]. rewrite app_length. cbn [length]. rewrite Nat.add_1_r. cbn [shift_right].
  replace (length a + S (length b) - 1) with (length a + length b) by lia.
  assert (E : nth_error (a ++ (b ++ [x]) ++ y :: c) (length a + length b) = Some x).
  { rewrite <- app_assoc. cbn [app]. rewrite app_assoc. rewrite <- app_length. apply nth_mid. }
  rewrite E. cbn [of_opt rbind].
  assert (E2 : upd (a ++ (b ++ [x]) ++ y :: c) (length a + S (length b)) x = Some (a ++ b ++ x :: x :: c)).
  { rewrite app_assoc. replace (length a + S (length b)) with (length (a ++ b ++ [x])) by (rewrite !app_length; cbn; lia). rewrite upd_mid. rewrite <- !app_assoc. auto. }
  rewrite E2. cbn [of_opt rbind]. destruct (IH a x (x :: c)) as [z Ez]. exists z. rewrite Ez, <- app_assoc. auto.
Qed.
Lemma ins_left {A} (a b c : list A) x : insertion A (length a) (length a + 1 + length b) (a ++ x :: b ++ c) = Ok (a ++ b ++ x :: c).
Proof.
  unfold insertion. rewrite nth_mid. cbn [of_opt rbind]. destruct (Nat.ltb_spec (length a) (length a + 1 + length b)); [|lia].
  replace (length a + 1 + length b - 1 - length a) with (length b) by lia. destruct (shift_left_ok b a x c) as [z E]. rewrite E. cbn [rbind].
  replace (length a + 1 + length b - 1) with (length (a ++ b)) by (rewrite app_length; lia). rewrite app_assoc, upd_mid, <- app_assoc. auto.
Qed.
Lemma ins_right {A} (a b c : list A) x : insertion A (length a + length b) (length a) (a ++ b ++ x :: c) = Ok (a ++ x :: b ++ c).
Proof.
  unfold insertion. rewrite app_assoc, <- app_length, nth_mid, app_length. cbn [of_opt rbind]. destruct (Nat.ltb_spec (length a + length b) (length a)); [lia|].
  replace (length a + length b - length a) with (length b) by lia. rewrite <- app_assoc. destruct (shift_right_ok b a x c) as [z E]. rewrite E. cbn [rbind].
  rewrite upd_mid. auto.
Qed.
Lemma cut {A} (l : list A) i j : i < j -> j <= length l -> exists a x b c, l = a ++ x :: b ++ c /\ length a = i /\ i + 1 + length b = j.
Proof.
  intros Hi Hj. destruct (nth_error_in_some l i) as [x Hx]; [lia|]. destruct (nth_error_split l i Hx) as (a & r & -> & La). rewrite app_length in Hj. cbn in Hj.
  exists a, x, (firstn (j - i - 1) r), (skipn (j - i - 1) r). rewrite firstn_skipn, firstn_length. split; auto. split; auto. lia.
Qed.
Lemma shift_move_ok {A} f s (sol : list A) : f < length sol -> s <= length sol -> exists sol', shift_move A (f, s) sol = Ok sol' /\ inserted f s sol sol' /\ Permutation sol' sol /\ shift_move_back A (f, s) sol' = Ok sol.
Proof.
  intros Hf Hs. unfold shift_move, shift_move_back. cbn [fst snd]. destruct (Nat.ltb_spec f s) as [H|H].
  - destruct (cut sol f s) as (a & x & b & c & -> & La & Lb); auto. subst f. exists (a ++ b ++ x :: c). rewrite <- Lb, ins_left. split; auto. split; [|split].
    + exists a, x, b, c. split; [lia|]. destruct (Nat.ltb_spec (length a) (length a + 1 + length b)); [|lia]. cbn [app]. rewrite !app_length. cbn [length]. repeat split; auto; lia.
    + apply Permutation_app_head. apply Permutation_sym, Permutation_middle.
    + replace (length a + 1 + length b - 1) with (length a + length b) by lia. apply ins_right.
  - assert (D : exists a x b c, sol = a ++ b ++ x :: c /\ length a = s /\ s + length b = f).
    { destruct (nth_error_in_some sol f) as [x Hx]; [lia|]. destruct (nth_error_split sol f Hx) as (r & c & -> & Lr). exists (firstn s r), x, (skipn s r), c.
      rewrite app_assoc, firstn_skipn, firstn_length, skipn_length. split; auto. lia. }
    destruct D as (a & x & b & c & -> & La & Lb). subst s f. exists (a ++ x :: b ++ c). rewrite ins_right. split; auto. split; [|split].
    + exists a, x, b, c. split; [lia|]. destruct (Nat.ltb_spec (length a + length b) (length a)); [lia|]. cbn [app]. rewrite !app_length. repeat split; auto.
    + apply Permutation_app_head. apply Permutation_middle.
    + replace (length a + length b + 1) with (length a + 1 + length b) by lia. apply ins_left.
Qed.
Lemma bit_move_ok k (sol : list bool) : k < length sol -> exists sol', bit_move k sol = Ok sol' /\ length sol' = length sol /\
  (forall i, nth_error sol' i = if i =? k then option_map negb (nth_error sol i) else nth_error sol i) /\ bit_move k sol' = Ok sol.
Proof.
  intros Hk. destruct (nth_error_in_some sol k Hk) as [b Hb]. unfold bit_move. rewrite Hb. cbn [obind]. rewrite upd_set by auto. exists (set sol k (negb b)). split; auto.
  split; [apply set_length|]. split.
  - intros i. destruct (Nat.eqb_spec i k) as [->|Hi]; [rewrite nth_error_set_eq by auto; rewrite Hb; auto|rewrite nth_error_set_neq; auto].
  - rewrite nth_error_set_eq by auto. cbn [obind]. rewrite upd_set by (rewrite set_length; auto). cbn. f_equal. apply nth_error_ext. intros i. destruct (Nat.eq_dec i k) as [->|Hi].
    + rewrite nth_error_set_eq by (rewrite set_length; auto). rewrite negb_involutive. auto.
    + rewrite !nth_error_set_neq; auto.
Qed.

(** ** keys *)
Lemma shift_index_ok n key : key < n * (n - 1) -> let (f, s) := shift_index n key in true_shift n f s /\ shift_key n f s = key.
Proof.
  intros H. assert (Hn : n <> 0) by (intros ->; lia). unfold shift_index, shift_key. pose proof (Nat.div_mod key n Hn) as D. pose proof (Nat.mod_upper_bound key n Hn) as M.
  assert (Q : key / n < n - 1) by (apply Nat.div_lt_upper_bound; lia).
  destruct (Nat.leb_spec (key mod n) (key / n)) as [C|C].
  - split; [unfold true_shift; lia|]. destruct (Nat.ltb_spec (key mod n) (key / n + 2)); [|lia]. replace (key / n + 2 - 2) with (key / n) by lia. nia.
  - split; [unfold true_shift; lia|]. destruct (Nat.ltb_spec (key mod n) (key / n)); [lia|]. nia.
Qed.
Lemma shift_key_ok n f s : true_shift n f s -> shift_key n f s < n * (n - 1) /\ shift_index n (shift_key n f s) = (f, s).
Proof.
  intros (Hf & Hs & H1 & H2). unfold shift_key.
  assert (G : forall q, q <= n - 2 -> q * n + f < n * (n - 1) /\ (q * n + f) mod n = f /\ (q * n + f) / n = q).
  { intros q Hq. split; [nia|]. destruct (Nat.div_mod_unique n ((q * n + f) / n) q ((q * n + f) mod n) f); try lia.
    - apply Nat.mod_upper_bound. lia.
    - rewrite <- Nat.div_mod by lia. lia. }
  destruct (Nat.ltb_spec f s).
  - destruct (G (s - 2)) as (A & B & C); [lia|]. split; auto. unfold shift_index. rewrite B, C. destruct (Nat.leb_spec f (s - 2)); [f_equal; lia|lia].
  - destruct (G s) as (A & B & C); [lia|]. split; auto. unfold shift_index. rewrite B, C. destruct (Nat.leb_spec f s); [lia|auto].
Qed.

Lemma sqrt_tri k m : (m * (m - 1) / 2 <= k)%N -> (k < m * (m + 1) / 2)%N -> (0 < m)%N -> ((1 + N.sqrt (1 + 8 * k)) / 2 = m)%N.
Proof.
  intros H1 H2 Hm. pose proof (N.sqrt_spec (1 + 8 * k)) as [A B]; [lia|]. set (s := N.sqrt (1 + 8 * k)) in *.
  assert (E1 : exists p, (m * (m - 1) = 2 * p)%N).
  { destruct (N.Even_or_Odd m) as [[q ->]|[q ->]]; [exists (q * (2 * q - 1))%N; lia|exists ((2 * q + 1) * q)%N; replace (2 * q + 1 - 1)%N with (2 * q)%N by lia; lia]. }
  destruct E1 as [p Ep]. assert (E2 : (m * (m + 1) = 2 * (p + m))%N) by nia.
  rewrite Ep in H1. rewrite E2 in H2. replace (2 * p)%N with (p * 2)%N in H1 by lia. replace (2 * (p + m))%N with ((p + m) * 2)%N in H2 by lia. rewrite N.div_mul in H1, H2 by lia.
  symmetry. apply (N.div_unique _ 2 m (1 + s - 2 * m)%N).
  - assert (2 * m - 1 <= s)%N by nia. assert (s < 2 * m + 1)%N by nia. lia.
  - assert (2 * m - 1 <= s)%N by nia. lia.
Qed.
Lemma wrap_sub a b : (b <= a)%N -> (a - b < two32)%N -> ((a + two32 - b) mod two32 = a - b)%N.
Proof.
  intros H1 H2. unfold two32 in *. replace (a + 4294967296 - b)%N with ((a - b) + 1 * 4294967296)%N by lia. rewrite N.mod_add by lia. apply N.mod_small. auto.
Qed.
Lemma half_product m : (exists p, m * (m - 1) = 2 * p /\ m * (m - 1) / 2 = p)%N.
Proof.
  assert (E1 : exists p, (m * (m - 1) = 2 * p)%N).
  { destruct (N.Even_or_Odd m) as [[q ->]|[q ->]]; [exists (q * (2 * q - 1))%N; lia|exists ((2 * q + 1) * q)%N; replace (2 * q + 1 - 1)%N with (2 * q)%N by lia; lia]. }
  destruct E1 as [p E]. exists p. split; auto. rewrite E, N.mul_comm. apply N.div_mul. lia.
Qed.
Lemma tri_next m : (m * (m + 1) / 2 = m * (m - 1) / 2 + m)%N.
Proof.
  destruct (half_product m) as (p & E1 & ->). assert (E : (m * (m + 1) = (p + m) * 2)%N) by nia. rewrite E. apply N.div_mul. lia.
Qed.
Lemma tri_mono a b : (a <= b -> a * (a - 1) / 2 <= b * (b - 1) / 2)%N.
Proof. intros H. apply N.div_le_mono; [lia|]. apply N.mul_le_mono; lia. Qed.
(** the key of (i, j) in plain arithmetic *)
Lemma swap_key_plain size f s : (f < s < size)%N -> (8 * (size * (size - 1) / 2) <= two32)%N ->
  let m := (size - (s - f))%N in (swap_key size f s = f + m * (m - 1) / 2 /\ 0 < m /\ f < m /\ m < size)%N.
Proof.
  intros H Hs m. assert (Hm : (0 < m /\ f < m /\ m < size)%N) by (unfold m; lia). split; auto.
  destruct (half_product size) as (q & Eq & Eq'). rewrite Eq' in Hs.
  assert (Hsz : (size < two32)%N) by (unfold two32 in *; nia).
  unfold swap_key. replace (size + f + two32 - s)%N with ((size + f) + two32 - s)%N by lia. rewrite wrap_sub by (unfold two32 in *; lia).
  replace (size + f - s)%N with m by (unfold m; lia). destruct (half_product m) as (p & Ep & Ep').
  assert (Hp : (p + m <= q)%N) by nia.
  assert (E : ((m * (m + two32 - 1)) mod two32 = m * (m - 1))%N).
  { replace (m * (m + two32 - 1))%N with (m * (m - 1) + m * two32)%N by (unfold two32; nia). rewrite N.mod_add by (unfold two32; lia). apply N.mod_small. unfold two32 in *. lia. }
  rewrite E, Ep'. apply N.mod_small. unfold two32 in *. lia.
Qed.
Lemma swap_index_plain size k m : (1 + 8 * k < two32 -> m * (m - 1) / 2 <= k -> k < m * (m + 1) / 2 -> 0 < m -> m < size -> size < two32 ->
  swap_index size k = (k - m * (m - 1) / 2, size + (k - m * (m - 1) / 2) - m))%N.
Proof.
  intros Hk H1 H2 Hm Hs Hsz. unfold swap_index. rewrite (N.mod_small (1 + 8 * k)) by auto. rewrite (sqrt_tri k m) by auto. cbv zeta.
  rewrite (N.mul_comm (m - 1) m). rewrite tri_next in H2. set (t := (m * (m - 1) / 2)%N) in *. rewrite wrap_sub by (unfold two32 in *; lia).
  replace (m + two32 - 1 - (k - t))%N with (m + two32 - (1 + (k - t)))%N by lia. rewrite (wrap_sub m (1 + (k - t))) by (unfold two32 in *; lia).
  f_equal. replace (size + two32 - 1 - (m - (1 + (k - t))))%N with (size + two32 - (1 + (m - (1 + (k - t)))))%N by lia. rewrite wrap_sub by (unfold two32 in *; lia). lia.
Qed.
Lemma swap_key_ok size f s : (f < s < size)%N -> (8 * (size * (size - 1) / 2) < two32)%N -> (swap_key size f s < size * (size - 1) / 2)%N /\ swap_index size (swap_key size f s) = (f, s).
Proof.
  intros H Hs. destruct (swap_key_plain size f s H) as (E & H1 & H2 & H3); [lia|]. set (m := (size - (s - f))%N) in *. rewrite E.
  assert (B : (f + m * (m - 1) / 2 < m * (m + 1) / 2)%N) by (rewrite tri_next; lia).
  assert (B2 : (m * (m + 1) / 2 <= size * (size - 1) / 2)%N) by (apply N.div_le_mono; [lia|]; nia).
  split; [lia|]. destruct (half_product size) as (q & Eq & Eq').
  rewrite (swap_index_plain size _ m); try lia.
  - f_equal; unfold m; lia.
Qed.
Lemma swap_index_ok size k : (k < size * (size - 1) / 2)%N -> (8 * (size * (size - 1) / 2) < two32)%N ->
  let (f, s) := swap_index size k in (f < s < size)%N /\ swap_key size f s = k.
Proof.
  intros Hk Hs. set (m := ((1 + N.sqrt (1 + 8 * k)) / 2)%N).
  assert (M : (m * (m - 1) / 2 <= k /\ k < m * (m + 1) / 2 /\ 0 < m)%N).
  { pose proof (N.sqrt_spec (1 + 8 * k)) as [A B]; [lia|]. set (s := N.sqrt (1 + 8 * k)) in *. rewrite tri_next.
    assert (D : (2 * m <= 1 + s < 2 * m + 2)%N). { pose proof (N.div_mod (1 + s) 2 ltac:(lia)) as D. pose proof (N.mod_lt (1 + s) 2 ltac:(lia)) as D2. fold m in D. revert D D2. generalize ((1 + s) mod 2)%N. intros r D D2. clear -D D2. lia. }
    assert (s <> 0)%N by nia. destruct (half_product m) as (p & Ep & ->). assert (Hm : (0 < m)%N) by lia. clearbody s m. clear Hs Hk. nia. }
  destruct M as (M1 & M2 & M3). destruct (half_product size) as (q & Eq & Eq').
  assert (Hm : (m < size)%N). { destruct (N.lt_ge_cases m size) as [|C]; auto. pose proof (tri_mono size m C). lia. }
  assert (Hsz : (size < two32)%N) by (unfold two32 in *; nia).
  rewrite (swap_index_plain size k m); auto; [|unfold two32 in *; lia]. rewrite tri_next in M2.
  set (t := (m * (m - 1) / 2)%N) in *. assert (P : (k - t < size + (k - t) - m < size)%N) by lia. split; auto.
  destruct (swap_key_plain size _ _ P) as (E & _); [lia|]. rewrite E. replace (size - (size + (k - t) - m - (k - t)))%N with m by lia. fold t. lia.
Qed.

(** ** which shifts give the same solution *)
Definition left_shift {A} f s (sol sol' : list A) := (forall k, k < f \/ s <= k -> nth_error sol' k = nth_error sol k) /\ nth_error sol' f = nth_error sol (f + 1) /\ nth_error sol' (s - 1) = nth_error sol f.
Definition right_shift {A} f s (sol sol' : list A) := (forall k, k < s \/ f < k -> nth_error sol' k = nth_error sol k) /\ nth_error sol' s = nth_error sol f /\ nth_error sol' f = nth_error sol (f - 1).
Lemma inserted_char {A} f s (sol sol' : list A) : inserted f s sol sol' -> s <> f -> s <> f + 1 ->
  (f + 1 < s /\ left_shift f s sol sol') \/ (s < f /\ right_shift f s sol sol').
Proof.
  intros (a & x & b & c & La & H) N1 N2. destruct (Nat.ltb_spec f s) as [C|C]; destruct H as (-> & -> & L); rewrite !app_length in L; cbn [length] in L; [left|right]; (split; [lia|]).
  - split; [|split].
    + intros k [Hk|Hk]; [rewrite !nth_error_app1 by lia; auto|]. rewrite !app_assoc. rewrite !nth_error_app2; rewrite !app_length; cbn [length]; try lia. f_equal. lia.
    + rewrite !(nth_error_app2 a) by lia. replace (f + 1 - length a) with (S (f - length a)) by lia. replace (f - length a) with 0 by lia. destruct b; [cbn in L; lia|auto].
    + rewrite (nth_error_app2 a), (nth_error_app2 b), (nth_error_app2 a) by lia. replace (s - 1 - length a - length b) with 0 by lia. replace (f - length a) with 0 by lia. auto.
  - split; [|split].
    + intros k [Hk|Hk]; [rewrite !nth_error_app1 by lia; auto|]. rewrite !app_assoc. rewrite !nth_error_app2; rewrite !app_length; cbn [length]; try lia. f_equal. lia.
    + rewrite (nth_error_app2 a), (nth_error_app2 a), (nth_error_app2 b) by lia. replace (s - length a) with 0 by lia. replace (f - length a - length b) with 0 by lia. auto.
    + rewrite !(nth_error_app2 a) by lia. replace (f - length a) with (S (f - 1 - length a)) by lia. cbn [app nth_error]. rewrite !nth_error_app1 by lia. auto.
Qed.
Lemma same_place {A} (sol : list A) i j : NoDup sol -> i < length sol -> nth_error sol i = nth_error sol j -> i = j.
Proof. intros N H E. apply (proj1 (NoDup_nth_error sol) N); auto. Qed.
Lemma shift_same {A} (sol : list A) f s f' s' sol' : NoDup sol -> true_shift (length sol) f s -> true_shift (length sol) f' s' ->
  inserted f s sol sol' -> inserted f' s' sol sol' -> (f = f' /\ s = s') \/ (s = f + 2 /\ f' = f + 1 /\ s' = f) \/ (s' = f' + 2 /\ f = f' + 1 /\ s = f').
Proof.
  intros N (T1 & T2 & T3 & T4) (T1' & T2' & T3' & T4') I I'.
  assert (X : forall i j, nth_error sol i = nth_error sol j -> i < length sol -> i <> j -> False) by (intros i j E Hi Hd; apply Hd; apply (same_place sol); auto).
  assert (LL : forall f s f' s', f + 1 < s -> f' + 1 < s' -> s <= length sol -> s' <= length sol -> left_shift f s sol sol' -> left_shift f' s' sol sol' -> f = f' /\ s = s').
  { clear -X. intros f s f' s' C C' H H' (A1 & A2 & A3) (B1 & B2 & B3). assert (f = f').
    { destruct (Nat.lt_trichotomy f f') as [D|[D|D]]; auto; exfalso.
      - apply (X f (f + 1)); try lia. rewrite <- A2, B1; auto.
      - apply (X f' (f' + 1)); try lia. rewrite <- B2, A1; auto. }
    subst f'. split; auto. destruct (Nat.lt_trichotomy s s') as [D|[D|D]]; auto; exfalso.
    - apply (X (s' - 1) f); try lia. rewrite <- B3, A1; auto; lia.
    - apply (X (s - 1) f); try lia. rewrite <- A3, B1; auto; lia. }
  assert (RR : forall f s f' s', s < f -> s' < f' -> f < length sol -> f' < length sol -> right_shift f s sol sol' -> right_shift f' s' sol sol' -> f = f' /\ s = s').
  { clear -X. intros f s f' s' C C' H H' (A1 & A2 & A3) (B1 & B2 & B3). assert (s = s').
    { destruct (Nat.lt_trichotomy s s') as [D|[D|D]]; auto; exfalso.
      - apply (X s f); try lia. rewrite <- A2, B1; auto.
      - apply (X s' f'); try lia. rewrite <- B2, A1; auto. }
    subst s'. split; auto. apply (same_place sol); auto; [|congruence]. apply NoDup_nth_error. intros i j Hi E. destruct (Nat.eq_dec i j); auto. exfalso. eauto. }
  assert (LR : forall f s f' s', f + 1 < s -> s' < f' -> s <= length sol -> f' < length sol -> left_shift f s sol sol' -> right_shift f' s' sol sol' -> s = f + 2 /\ f' = f + 1 /\ s' = f).
  { clear -X. intros f s f' s' C C' H H' (A1 & A2 & A3) (B1 & B2 & B3). assert (f = s').
    { destruct (Nat.lt_trichotomy f s') as [D|[D|D]]; auto; exfalso.
      - apply (X f (f + 1)); try lia. rewrite <- A2, B1; auto.
      - apply (X s' f'); try lia. rewrite <- B2, A1; auto. }
    subst s'. assert (f' = f + 1). { destruct (Nat.eq_dec f' (f + 1)) as [|D]; auto. exfalso. apply (X f' (f + 1)); auto. congruence. }
    subst f'. split; auto. destruct (Nat.eq_dec s (f + 2)) as [|D]; auto. exfalso. apply (X (s - 1) f); try lia. rewrite <- A3, B1; auto; lia. }
  destruct (inserted_char f s sol sol' I T3 T4) as [[C Z]|[C Z]], (inserted_char f' s' sol sol' I' T3' T4') as [[C' Z']|[C' Z']]; auto.
Qed.
(** an adjacent exchange is one of both *)
Lemma shift_adjacent {A} (a c : list A) x y : inserted (length a) (length a + 2) (a ++ x :: y :: c) (a ++ y :: x :: c) /\ inserted (length a + 1) (length a) (a ++ x :: y :: c) (a ++ y :: x :: c).
Proof.
  split.
  - exists a, x, [y], c. split; [lia|]. destruct (Nat.ltb_spec (length a) (length a + 2)); [|lia]. rewrite app_length. cbn. auto.
  - exists a, y, [x], c. split; [lia|]. destruct (Nat.ltb_spec (length a + 1) (length a)); [lia|]. rewrite app_length. cbn. auto.
Qed.
(** with (n-1)^2 keys the exchange of the last two elements is never produced *)
Lemma shift_missed {A} (a : list A) x y key sol' : a <> [] -> NoDup (a ++ [x; y]) -> key < (length (a ++ [x; y]) - 1) * (length (a ++ [x; y]) - 1) ->
  shift_move A (shift_index (length (a ++ [x; y])) key) (a ++ [x; y]) = Ok sol' -> sol' <> a ++ [y; x].
Proof.
  intros Ha N Hk E ->. set (sol := a ++ [x; y]) in *. assert (Ln : length sol = length a + 2) by (unfold sol; rewrite app_length; auto).
  assert (La : 0 < length a) by (destruct a; [congruence|cbn; lia]).
  pose proof (shift_index_ok (length sol) key ltac:(nia)) as K. destruct (shift_index (length sol) key) as [f s]. destruct K as [T K].
  destruct (shift_move_ok f s sol) as (s2 & E2 & I & _); [apply T|apply T|]. rewrite E in E2. inversion E2; subst s2. destruct (shift_adjacent a [] x y) as [I1 I2].
  assert (T1 : true_shift (length sol) (length a) (length a + 2)) by (unfold true_shift; lia).
  destruct (shift_same sol f s (length a) (length a + 2) _ N T T1 I I1) as [[-> ->]|[(? & ? & ?)|(? & -> & ->)]]; [|lia|]; subst key; revert Hk; unfold shift_key; rewrite Ln.
  - destruct (Nat.ltb_spec (length a) (length a + 2)); nia.
  - destruct (Nat.ltb_spec (length a + 1) (length a)); nia.
Qed.
Lemma shift_twice {A} (a c : list A) x y : let sol := a ++ x :: y :: c in let n := length sol in
  exists k k', k < n * (n - 1) /\ k' < n * (n - 1) /\ k <> k' /\
  shift_move A (shift_index n k) sol = Ok (a ++ y :: x :: c) /\ shift_move A (shift_index n k') sol = Ok (a ++ y :: x :: c).
Proof.
  intros sol n. assert (Ln : n = length a + 2 + length c) by (unfold n, sol; rewrite app_length; cbn; lia).
  destruct (shift_key_ok n (length a) (length a + 2)) as [K1 I1]; [unfold true_shift; lia|].
  destruct (shift_key_ok n (length a + 1) (length a)) as [K2 I2]; [unfold true_shift; lia|].
  exists (shift_key n (length a) (length a + 2)), (shift_key n (length a + 1) (length a)). split; auto. split; auto. split; [|split].
  - intros E. rewrite E, I2 in I1. inversion I1. lia.
  - rewrite I1. unfold shift_move. cbn [fst snd]. replace (length a + 2) with (length a + 1 + length [y]) by (cbn; lia). apply (ins_left a [y] c x).
  - rewrite I2. unfold shift_move. cbn [fst snd]. change 1 with (length [x]) at 1. apply (ins_right a [x] c y).
Qed.
