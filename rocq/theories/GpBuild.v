From Coq Require Import List Arith Bool Lia.
From Verif Require Import Lib Outcome GpModel GpSpec GpProofs GpOps.
From Coq Require Import List.
Import ListNotations.
Open Scope nat_scope.

Section Gp.
Context {N : Type}.
Variable arity : N -> nat.
Notation subtree := (subtree N).
Notation size := (size N).
Notation args := (args N).
Notation content := (content N).
Notation refresh := (refresh N).
Notation get_node := (get_node N).
Notation sub_at := (sub_at N).
Notation Sub := (Sub N).
Notation next := (next N).
Notation init := (init N arity).

(** *** the iterator *)
Lemma ways_last (t : tree N) w : nth_error (ways t) w = Some [] -> S w = count t.
Proof.
  intros H. assert (Hl : nth_error (ways t) (count t - 1) = Some []).
  { destruct t as [n a]. rewrite <- ways_length, ways_eq, app_length. cbn [length]. rewrite nth_error_app2 by lia. now replace (_ - _ - _) with 0 by lia. }
  pose proof (ways_nodup t) as Hn. pose proof (count_pos t). assert (w = count t - 1); [|lia]. eapply NoDup_nth_error_inj; eauto.
Qed.
Lemma next_ways : forall t, true_stats t -> forall w p, nth_error (ways (abs t)) w = Some p -> next t p = Ok (nth_error (ways (abs t)) (S w)).
Proof.
  induction t as [c a s d m IH] using sub_ind. intros Ht w p Hp.
  assert (Ha := stats_args _ Ht). cbn [GpModel.args] in Ha. change (abs (Sub c a s d m)) with (Tree c (map abs a)) in *. rewrite ways_eq in Hp |- *.
  assert (HL : forall b l i, a = b ++ l -> length b = i -> forall w p, nth_error (ways_go (map abs l) i) w = Some p ->
     next (Sub c a s d m) p = Ok (match nth_error (ways_go (map abs l) i) (S w) with Some p' => Some p' | None =>
         match i with 0 => Some [] | S j => match nth_error a j with Some y => Some (j :: get_node y 0) | None => None end end end)).
  { clear w p Hp. intros b l. revert b. induction l as [|x r IHl]; intros b i Ea Hb w p Hp; cbn [map ways_go] in *; [now destruct w|].
    assert (Ex : nth_error a i = Some x) by (rewrite Ea, nth_error_app2, Hb, Nat.sub_diag by lia; reflexivity).
    assert (Hin : In x a) by (eapply nth_error_In; eauto). assert (Hsx : true_stats x) by (rewrite Forall_forall in Ha; auto).
    assert (IHx := proj1 (Forall_forall _ _) IH x Hin Hsx).
    destruct (Nat.lt_ge_cases w (length (ways_go (map abs r) (S i)))) as [L|G].
    - rewrite nth_error_app1 in Hp by auto. rewrite (IHl (b ++ [x]) (S i)) with (w := w) (p := p); auto; [|now rewrite <- app_assoc|rewrite app_length; cbn; lia].
      destruct (nth_error (ways_go (map abs r) (S i)) (S w)) as [p'|] eqn:E.
      + rewrite nth_error_app1 by (eapply nth_error_lt; eauto). now rewrite E.
      + apply nth_error_None in E. rewrite nth_error_app2 by lia. replace (S w - length (ways_go (map abs r) (S i))) with 0 by lia.
        rewrite Ex. rewrite nth_error_map', (get_node_ways x Hsx 0); [reflexivity|]. rewrite (stats_size _ Hsx). apply count_pos.
    - rewrite nth_error_app2 in Hp by auto. rewrite nth_error_app2 by lia. replace (S w - length (ways_go (map abs r) (S i))) with (S (w - length (ways_go (map abs r) (S i)))) by lia.
      set (w' := w - length (ways_go (map abs r) (S i))) in *. rewrite nth_error_map' in Hp |- *. destruct (nth_error (ways (abs x)) w') as [q|] eqn:Eq; [|discriminate].
      cbn [option_map] in Hp. injection Hp as <-. cbn [GpModel.next GpModel.args]. rewrite Ex. destruct q as [|k q].
      + apply ways_last in Eq. assert (En : nth_error (ways (abs x)) (S w') = None) by (apply nth_error_None; rewrite ways_length; lia). rewrite En. cbn [option_map].
        destruct i as [|j]; auto. destruct (nth_error a j) as [y|] eqn:Ej; auto. apply nth_error_None in Ej. apply nth_error_lt in Ex. lia.
      + rewrite (IHx w' (k :: q) Eq). cbn [rbind]. destruct (nth_error (ways (abs x)) (S w')) as [q'|] eqn:E'; [reflexivity|].
        exfalso. apply nth_error_None in E'. rewrite ways_length in E'. assert (Hw := nth_error_lt _ _ _ Eq). rewrite ways_length in Hw.
        assert (Hl : nth_error (ways (abs x)) (count (abs x) - 1) = Some []).
        { rewrite (abs_eq x), <- ways_length, ways_eq, app_length. cbn [length]. rewrite nth_error_app2 by lia. now replace (_ - _ - _) with 0 by lia. }
        replace w' with (count (abs x) - 1) in Eq by lia. congruence. }
  destruct (Nat.lt_ge_cases w (length (ways_go (map abs a) 0))) as [L|G].
  - rewrite nth_error_app1 in Hp by auto. rewrite (HL [] a 0 eq_refl eq_refl w p Hp).
    destruct (nth_error (ways_go (map abs a) 0) (S w)) as [p'|] eqn:E.
    + rewrite nth_error_app1 by (eapply nth_error_lt; eauto). now rewrite E.
    + apply nth_error_None in E. rewrite nth_error_app2 by lia. now replace (S w - length (ways_go (map abs a) 0)) with 0 by lia.
  - rewrite nth_error_app2 in Hp by auto. destruct (w - length (ways_go (map abs a) 0)) as [|k] eqn:E; cbn in Hp; [|now destruct k]. injection Hp as <-.
    cbn [GpModel.next]. f_equal. symmetry. apply nth_error_None. rewrite app_length. cbn. lia.
Qed.
Lemma weight_count (t : subtree) : weight N t = count (abs t).
Proof.
  induction t as [c a s d m IH] using sub_ind. cbn [weight abs count]. f_equal. induction IH as [|x r Hx _ IHr]; auto. cbn [map].
  change (list_sum (count (abs x) :: map count (map abs r))) with (count (abs x) + list_sum (map count (map abs r))). now rewrite Hx, IHr.
Qed.
Lemma skipn_cons_nth {A} (l : list A) w x : nth_error l w = Some x -> skipn w l = x :: skipn (S w) l.
Proof. revert w. induction l as [|y l IH]; intros [|w] H; cbn in H; try discriminate; [injection H as <-; reflexivity|]. cbn. rewrite (IH _ H). reflexivity. Qed.
Lemma walk_spec t : true_stats t -> forall fuel w p, count (abs t) - w <= fuel -> nth_error (ways (abs t)) w = Some p ->
  walk N fuel t p = Ok (skipn w (postfix (abs t))).
Proof.
  intros Ht. induction fuel as [|f IH]; intros w p Hf Hp.
  - apply nth_error_lt in Hp. rewrite ways_length in Hp. lia.
  - cbn [walk]. assert (Hw := nth_error_lt _ _ _ Hp).
    destruct (follow (abs t) p) as [x|] eqn:E.
    2: { exfalso. assert (Hin : In p (ways (abs t))) by (eapply nth_error_In; eauto). apply in_ways in Hin. congruence. }
    destruct (follow_sub_at _ _ _ E) as (s & Hs & Ex). rewrite Hs. cbn [rbind]. rewrite (next_ways t Ht w p Hp). cbn [rbind].
    assert (HN : nth_error (postfix (abs t)) w = Some (content s)).
    { rewrite <- map_root_subtrees, nth_error_map'. pose proof (f_equal (fun l => nth_error l w) (map_follow_subtrees (abs t))) as HF. cbv beta in HF. rewrite !nth_error_map', Hp in HF. cbn [option_map] in HF. rewrite E in HF.
      destruct (nth_error (subtrees (abs t)) w); [|discriminate]. cbn [option_map] in HF. injection HF as HF. subst x. rewrite <- HF, abs_eq. reflexivity. }
    rewrite (skipn_cons_nth _ _ _ HN). destruct (nth_error (ways (abs t)) (S w)) as [p'|] eqn:E'.
    + rewrite (IH (S w) p' ltac:(lia) E'). reflexivity.
    + apply nth_error_None in E'. rewrite skipn_all2; auto. rewrite postfix_length, <- ways_length. exact E'.
Qed.
Lemma nodes_spec t : true_stats t -> nodes N t = Ok (postfix (abs t)).
Proof.
  intros Ht. unfold nodes. rewrite (walk_spec t Ht (S (weight N t)) 0); [reflexivity|rewrite weight_count; lia|].
  apply get_node_ways; auto. rewrite (stats_size _ Ht). apply count_pos.
Qed.

(** *** building from a sequence *)
Fixpoint init_args (f k : nat) (r : list N) : res (list subtree * list N) :=
  match k with
  | 0 => Ok ([], r)
  | S k' => let! (x, r1) := init f r in let! (l, r2) := init_args f k' r1 in Ok (x :: l, r2)
  end.
Lemma init_S f rl : init (S f) rl = match rl with [] => UB | n :: r =>
  if (match r with [] => true | _ => false end) && (0 <? arity n) then Throw else let! (a, r') := init_args f (arity n) r in Ok (refresh n a, r') end.
Proof.
  cbn [GpModel.init]. destruct rl as [|n r]; auto. destruct ((match r with [] => true | _ => false end) && (0 <? arity n)); auto.
  match goal with |- rbind (?g (arity n) r) _ = _ => assert (E : forall k r, g k r = init_args f k r) end.
  { induction k as [|k IHk]; intros r0; auto. cbn [init_args]. destruct (init f r0) as [[x r1]| | |]; auto. cbn [rbind]. rewrite IHk. reflexivity. }
  rewrite E. reflexivity.
Qed.
Lemma rev_postfix (n : N) a : rev (postfix (Tree n a)) = n :: concat (map (fun t => rev (postfix t)) a).
Proof.
  cbn [postfix]. rewrite rev_app_distr. cbn [rev app]. f_equal. induction a as [|x r IH]; auto.
  cbn [map]. rewrite concat_rev_cons, rev_app_distr, IH. reflexivity.
Qed.
Lemma init_args_sound f : (forall rl t rest, init f rl = Ok (t, rest) -> sound arity t /\ rl = rev (postfix (abs t)) ++ rest) ->
  forall k r l r', init_args f k r = Ok (l, r') -> Forall (sound arity) l /\ length l = k /\ r = concat (map (fun t => rev (postfix t)) (map abs l)) ++ r'.
Proof.
  intros IH. induction k as [|k IHk]; intros r l r' Hk; cbn [init_args] in Hk; [injection Hk as <- <-; auto|].
  apply rbind_ok in Hk as ([x r1] & Hx & Hk). apply rbind_ok in Hk as ([l' r2] & Hl & Hk). injection Hk as <- <-.
  apply IH in Hx as [Hx ->]. apply IHk in Hl as (Hl & Hlen & ->). cbn [map concat length]. rewrite <- app_assoc. auto.
Qed.
Lemma init_sound : forall f rl t rest, init f rl = Ok (t, rest) -> sound arity t /\ rl = rev (postfix (abs t)) ++ rest.
Proof.
  induction f as [|f IH]; intros rl t rest H; [discriminate|]. rewrite init_S in H. destruct rl as [|n r]; [discriminate|].
  destruct ((match r with [] => true | _ => false end) && (0 <? arity n)); [discriminate|].
  apply rbind_ok in H as ([a r'] & Ha & H). injection H as <- <-.
  apply (init_args_sound f IH) in Ha as (Ha & Hl & ->). split; [now apply sound_refresh|]. rewrite refresh_abs, rev_postfix. reflexivity.
Qed.
Lemma postfix_nil (t : tree N) : postfix t <> [].
Proof. destruct t. cbn. intros H. apply app_eq_nil in H as [_ H]. discriminate. Qed.
Lemma init_complete : forall t, sound arity t -> forall fuel rest, count (abs t) <= fuel -> init fuel (rev (postfix (abs t)) ++ rest) = Ok (t, rest).
Proof.
  induction t as [c a s d m IH] using sub_ind. intros Ht fuel rest Hf. pose proof (count_pos (abs (Sub c a s d m))). destruct fuel as [|f]; [lia|].
  pose proof (sound_args arity _ Ht) as Ha. pose proof (sound_arity arity _ Ht) as Hl. cbn [GpModel.args GpModel.content] in Ha, Hl.
  change (abs (Sub c a s d m)) with (Tree c (map abs a)) in *. rewrite rev_postfix. cbn [app]. rewrite init_S.
  assert (E0 : (match concat (map (fun t => rev (postfix t)) (map abs a)) ++ rest with [] => true | _ => false end) && (0 <? arity c) = false).
  { destruct a as [|x r]; cbn in Hl; [rewrite <- Hl; apply andb_false_r|]. cbn [map concat]. destruct (rev (postfix (abs x))) eqn:E; [|reflexivity].
    exfalso. apply (postfix_nil (abs x)). rewrite <- (rev_involutive (postfix (abs x))), E. reflexivity. }
  rewrite E0. assert (HA : forall l, Forall (fun t => sound arity t -> forall fuel rest, count (abs t) <= fuel -> init fuel (rev (postfix (abs t)) ++ rest) = Ok (t, rest)) l ->
     Forall (sound arity) l -> list_sum (map count (map abs l)) <= f -> forall rest, init_args f (length l) (concat (map (fun t => rev (postfix t)) (map abs l)) ++ rest) = Ok (l, rest)).
  { clear. induction 1 as [|x r Hx _ IHr]; intros Hs Hf rest; cbn [length init_args map concat app]; auto. inversion_clear Hs as [|? ? Hsx Hsr]. cbn [map] in Hf.
    change (list_sum (count (abs x) :: map count (map abs r))) with (count (abs x) + list_sum (map count (map abs r))) in Hf.
    rewrite <- app_assoc, Hx by (auto; lia). cbn [rbind]. rewrite IHr by (auto; lia). reflexivity. }
  rewrite <- Hl, HA; auto; [|cbn [count] in Hf; lia]. cbn [rbind]. f_equal. f_equal. apply (refresh_same (Sub c a s d m)). apply Ht.
Qed.
Lemma build_sound seq t : build N arity seq = Ok t -> sound arity t /\ exists pre, seq = pre ++ postfix (abs t).
Proof.
  intros H. unfold build in H. apply rbind_ok in H as ([t' rest] & H1 & H). injection H as <-. apply init_sound in H1 as [H1 H2]. split; auto.
  exists (rev rest). rewrite <- (rev_involutive seq), H2, rev_app_distr, rev_involutive. reflexivity.
Qed.
Lemma build_complete t pre : sound arity t -> build N arity (pre ++ postfix (abs t)) = Ok t.
Proof.
  intros Ht. unfold build. rewrite rev_app_distr, init_complete; auto. rewrite app_length, postfix_length. lia.
Qed.
Lemma sound_exists (x : tree N) : well_formed arity x -> exists t, sound arity t /\ abs t = x.
Proof.
  induction x as [n a IH] using tree_ind'. intros H. inversion H as [n' a' Hl Ha]; subst.
  assert (E : exists l, Forall (sound arity) l /\ map abs l = a).
  { clear H Hl. induction IH as [|y r Hy _ IHr]; [exists []; auto|]. inversion_clear Ha as [|? ? Hwy Hwr]. destruct (Hy Hwy) as (t & Ht & <-).
    destruct (IHr Hwr) as (l & Hl & <-). exists (t :: l). auto. }
  destruct E as (l & Hsl & <-). exists (refresh n l). split; [|reflexivity]. apply sound_refresh; auto. now rewrite map_length in Hl.
Qed.
Lemma save_load t : sound arity t -> exists x, print N t = Ok x /\ read N arity x = Ok t.
Proof.
  intros Ht. unfold print. rewrite nodes_spec by apply Ht. cbn [rbind]. eexists. split; [reflexivity|]. unfold read. cbn [fst snd].
  rewrite postfix_length, (stats_size _ (proj1 Ht)), Nat.leb_refl, firstn_all2 by (rewrite postfix_length; lia).
  apply (build_complete t []). exact Ht.
Qed.
(** a sequence without terminals is not a tree *)
Lemma has_leaf (x : tree N) : well_formed arity x -> exists n, In n (postfix x) /\ arity n = 0.
Proof.
  induction x as [n a IH] using tree_ind'. intros H. inversion H as [n' a' Hl Ha]; subst. destruct a as [|y r].
  - exists n. split; [cbn; auto|]. now rewrite <- Hl.
  - inversion_clear IH as [|? ? Hy _]. inversion_clear Ha as [|? ? Hwy _]. destruct (Hy Hwy) as (m & Hm & Hz). exists m. split; auto.
    cbn [postfix map]. rewrite concat_rev_cons, !in_app_iff. auto.
Qed.

(** *** the initializer *)
Fixpoint gen_args (f : nat) (set : list N) (grow : bool) (m k : nat) (acc : list N) (ds : list nat) : res (list N * list nat) :=
  match k with
  | 0 => Ok (acc, ds)
  | S k' => let! (acc1, ds1) := generate N arity f set grow m acc ds in gen_args f set grow m k' acc1 ds1
  end.
Lemma generate_S f set grow m acc ds : generate N arity (S f) set grow m acc ds =
  if m =? 1 then let! (n, ds) := pick N set 0 (last_terminal N arity set) ds in Ok (n :: acc, ds)
  else let! (n, ds) := (if grow then pick N set 0 (length set) ds else pick N set (last_terminal N arity set) (length set - last_terminal N arity set) ds) in
    gen_args f set grow (m - 1) (arity n) (n :: acc) ds.
Proof.
  cbn [generate]. destruct (m =? 1); auto. destruct (if grow then _ else _) as [[n ds1]| | |]; auto. cbn [rbind].
  generalize (n :: acc). generalize ds1. generalize (arity n). clear. induction n as [|k IHk]; intros ds acc; auto.
  cbn [gen_args]. destruct (generate N arity f set grow (m - 1) acc ds) as [[a1 d1]| | |]; auto. cbn [rbind]. apply IHk.
Qed.
Definition arity_sorted (set : list N) : Prop := forall i j a b, i < j -> nth_error set i = Some a -> nth_error set j = Some b -> arity a <= arity b.
Lemma last_terminal_spec set : arity_sorted set -> forall i n, nth_error set i = Some n -> (i < last_terminal N arity set <-> arity n = 0).
Proof.
  induction set as [|x r IH]; intros Hs i n Hi; [destruct i; discriminate|]. cbn [last_terminal].
  destruct (0 <? arity x) eqn:E; [apply Nat.ltb_lt in E|apply Nat.ltb_ge in E].
  - split; [lia|]. intros Hn. destruct i as [|i]; [cbn in Hi; injection Hi as ->; lia|]. specialize (Hs 0 (S i) x n ltac:(lia) eq_refl Hi). lia.
  - destruct i as [|i]; [cbn in Hi; injection Hi as ->; lia|]. cbn in Hi. rewrite <- (IH) with (i := i); auto; [lia|].
    intros i' j' a b Hij Ha Hb. apply (Hs (S i') (S j')); auto. lia.
Qed.
Lemma last_terminal_le set : last_terminal N arity set <= length set.
Proof. induction set as [|x r IH]; cbn [last_terminal length]; auto. destruct (0 <? arity x); lia. Qed.
Lemma pick_spec set from n ds x ds' : pick N set from n ds = Ok (x, ds') -> exists k, nth_error set (from + k) = Some x /\ (0 < n -> k < n).
Proof.
  intros H. unfold pick in H. apply rbind_ok in H as ([k ds1] & Hk & H). apply rbind_ok in H as (y & Hy & H). injection H as <- <-. apply of_opt_ok in Hy.
  eexists. split; [exact Hy|]. intros Hn. destruct (n =? 0) eqn:E; [auto|]. eapply draw_lt; eauto.
Qed.
Lemma nodes_in_tree set (n : N) a : In n set -> Forall (nodes_in set) a -> nodes_in set (Tree n a).
Proof.
  intros Hn Ha m Hm. cbn [postfix] in Hm. rewrite in_app_iff in Hm. destruct Hm as [Hm|[<-|[]]]; auto.
  induction Ha as [|y r Hy _ IH]; [destruct Hm|]. cbn [map] in Hm. rewrite concat_rev_cons, in_app_iff in Hm. destruct Hm; auto.
Qed.
Lemma generate_spec set : arity_sorted set -> 0 < last_terminal N arity set -> forall f grow m acc ds acc' ds', 1 <= m ->
  (grow = false -> last_terminal N arity set < length set) ->
  generate N arity f set grow m acc ds = Ok (acc', ds') ->
  exists t, acc' = postfix t ++ acc /\ well_formed arity t /\ nodes_in set t /\ height t <= m /\ (grow = false -> full m t).
Proof.
  intros Hs Ht. induction f as [|f IH]; intros grow m acc ds acc' ds' Hm Hg H; [discriminate|]. rewrite generate_S in H.
  destruct (m =? 1) eqn:E1; [apply Nat.eqb_eq in E1|apply Nat.eqb_neq in E1].
  - apply rbind_ok in H as ([n ds1] & Hn & H). injection H as <- <-. apply pick_spec in Hn as (k & Hk & Hlt). cbn in Hk. specialize (Hlt Ht).
    exists (Tree n []). cbn. assert (Ha : arity n = 0) by (apply (last_terminal_spec set Hs k n Hk); auto).
    conjs; auto; try lia; [constructor; auto|apply nodes_in_tree; auto; eapply nth_error_In; eauto|]. intros _. rewrite E1. constructor.
  - apply rbind_ok in H as ([n ds1] & Hn & H).
    assert (HN : In n set /\ (grow = false -> 0 < arity n)).
    { destruct grow; apply pick_spec in Hn as (k & Hk & Hlt); (split; [eapply nth_error_In; eauto|]); try discriminate. intros _.
      specialize (Hlt ltac:(specialize (Hg eq_refl); lia)). destruct (arity n) eqn:Ea; [|lia]. apply (last_terminal_spec set Hs _ n Hk) in Ea. lia. }
    destruct HN as [Hin Hfn].
    assert (HA : forall k acc ds acc' ds', gen_args f set grow (m - 1) k acc ds = Ok (acc', ds') ->
       exists l, length l = k /\ acc' = concat (rev (map postfix l)) ++ acc /\ Forall (well_formed arity) l /\ Forall (nodes_in set) l /\ Forall (fun t => height t <= m - 1) l /\ (grow = false -> Forall (full (m - 1)) l)).
    { clear H. induction k as [|k IHk]; intros acc0 ds0 acc0' ds0' H0; cbn [gen_args] in H0.
      - injection H0 as <- <-. exists []. conjs; auto.
      - apply rbind_ok in H0 as ([acc1 ds2] & H1 & H0). apply IH in H1 as (t & -> & W1 & W2 & W3 & W4); auto; [|lia].
        apply IHk in H0 as (l & <- & -> & L1 & L2 & L3 & L4). exists (t :: l). cbn [map]. rewrite concat_rev_cons, <- app_assoc. conjs; auto. }
    apply HA in H as (l & Hl & -> & L1 & L2 & L3 & L4). exists (Tree n l). cbn [postfix]. rewrite <- app_assoc. conjs; auto.
    + constructor; auto.
    + apply nodes_in_tree; auto.
    + cbn [height]. enough (list_max (map height l) <= m - 1) by lia. rewrite list_max_le. rewrite Forall_map. exact L3.
    + intros Hgf. replace m with (S (m - 1)) by lia. constructor; auto. specialize (Hfn Hgf). intros ->. cbn in Hl. lia.
Qed.

(** enough draws always give a tree *)
Lemma pick_total set from n ds : ds <> [] -> from + n <= length set -> 0 < n -> exists x ds', pick N set from n ds = Ok (x, ds') /\ length ds = S (length ds') /\ In x set.
Proof.
  intros Hd Hl Hn. destruct ds as [|d ds]; [congruence|]. unfold pick. cbn [draw rbind]. destruct (n =? 0) eqn:E; [apply Nat.eqb_eq in E; lia|].
  assert (d mod n < n) by (apply Nat.mod_upper_bound; lia). destruct (nth_error set (from + d mod n)) as [x|] eqn:Ex; [|apply nth_error_None in Ex; lia].
  cbn. exists x, ds. split; auto. split; auto. eapply nth_error_In; eauto.
Qed.
Lemma generate_total set : 0 < last_terminal N arity set -> forall m grow, 1 <= m -> (grow = false -> last_terminal N arity set < length set) ->
  exists B, forall f acc ds, m <= f -> B <= length ds -> exists acc' ds', generate N arity f set grow m acc ds = Ok (acc', ds') /\ length ds <= B + length ds'.
Proof.
  intros Ht. pose proof (last_terminal_le set) as Hle. induction m as [|m IH]; intros grow Hm Hg; [lia|].
  destruct m as [|m].
  - exists 1. intros f acc ds Hf Hd. destruct f as [|f]; [lia|]. rewrite generate_S. cbn [Nat.eqb].
    destruct (pick_total set 0 (last_terminal N arity set) ds) as (x & ds' & -> & Hlen & _); auto; [destruct ds; cbn in Hd; [lia|discriminate]|]. cbn [rbind]. do 2 eexists. split; [reflexivity|lia].
  - destruct (IH grow ltac:(lia) Hg) as [B HB]. set (A := list_max (map arity set)).
    exists (S (A * B)). intros f acc ds Hf Hd. destruct f as [|f]; [lia|]. rewrite generate_S. destruct (S (S m) =? 1) eqn:E; [apply Nat.eqb_eq in E; lia|].
    assert (HP : exists x ds', (if grow then pick N set 0 (length set) ds else pick N set (last_terminal N arity set) (length set - last_terminal N arity set) ds) = Ok (x, ds') /\ length ds = S (length ds') /\ In x set).
    { assert (ds <> []) by (destruct ds; cbn in Hd; [lia|discriminate]). destruct grow; apply pick_total; auto; try specialize (Hg eq_refl); lia. }
    destruct HP as (x & ds1 & -> & Hl1 & Hx). cbn [rbind]. replace (S (S m) - 1) with (S m) by lia.
    assert (HA : arity x <= A). { unfold A. assert (HF := proj1 (list_max_le (map arity set) (list_max (map arity set))) ltac:(lia)). rewrite Forall_forall in HF. apply HF. now apply in_map. }
    assert (HK : forall k acc ds, k * B <= length ds -> exists acc' ds', gen_args f set grow (S m) k acc ds = Ok (acc', ds') /\ length ds <= k * B + length ds').
    { induction k as [|k IHk]; intros acc0 ds0 Hd0; cbn [gen_args]; [do 2 eexists; split; [reflexivity|lia]|]. cbn in Hd0.
      destruct (HB f acc0 ds0 ltac:(lia) ltac:(lia)) as (acc1 & ds2 & -> & Hl2). cbn [rbind]. destruct (IHk acc1 ds2 ltac:(lia)) as (acc2 & ds3 & E3 & Hl3).
      exists acc2, ds3. split; auto. cbn. lia. }
    assert (arity x * B <= A * B) by (apply Nat.mul_le_mono_r; auto).
    destruct (HK (arity x) (x :: acc) ds1 ltac:(lia)) as (acc' & ds' & -> & Hl). do 2 eexists. split; [reflexivity|lia].
Qed.
(** depth 0 never ends *)
Lemma generate_zero set : last_terminal N arity set < length set -> arity_sorted set -> forall f acc ds, generate N arity f set false 0 acc ds = NoDraw.
Proof.
  intros Hl Hs. induction f as [|f IH]; intros acc ds; auto. rewrite generate_S. cbn [Nat.eqb].
  destruct ds as [|d ds]; auto. destruct (pick N set (last_terminal N arity set) (length set - last_terminal N arity set) (d :: ds)) as [[n ds1]| | |] eqn:E; cbn [rbind]; auto.
  - apply pick_spec in E as (k & Hk & _). destruct (arity n) eqn:Ea.
    + apply (last_terminal_spec set Hs _ n Hk) in Ea. lia.
    + cbn [gen_args]. cbn [Nat.sub]. rewrite IH. reflexivity.
  - exfalso. unfold pick in E. cbn [draw rbind] in E. destruct (nth_error _ _); discriminate.
  - exfalso. unfold pick in E. cbn [draw rbind] in E. destruct (length set - last_terminal N arity set =? 0) eqn:E0; [apply Nat.eqb_eq in E0; lia|].
    assert (H : d mod (length set - last_terminal N arity set) < length set - last_terminal N arity set) by (apply Nat.mod_upper_bound; lia).
    destruct (nth_error set (last_terminal N arity set + d mod (length set - last_terminal N arity set))) eqn:En; [discriminate|]. apply nth_error_None in En. lia.
Qed.
(** the nodes generated are in the set, whatever it is *)
Lemma generate_in set : forall f grow m acc ds acc' ds', (forall n, In n acc -> In n set) -> generate N arity f set grow m acc ds = Ok (acc', ds') -> forall n, In n acc' -> In n set.
Proof.
  induction f as [|f IH]; intros grow m acc ds acc' ds' Hacc H; [discriminate|]. rewrite generate_S in H. destruct (m =? 1).
  - apply rbind_ok in H as ([x ds1] & Hx & H). injection H as <- <-. apply pick_spec in Hx as (k & Hk & _). intros n [<-|Hn]; auto. eapply nth_error_In; eauto.
  - apply rbind_ok in H as ([x ds1] & Hx & H).
    assert (Hin : In x set) by (destruct grow; apply pick_spec in Hx as (k & Hk & _); eapply nth_error_In; eauto).
    assert (HA : forall k acc ds acc' ds', (forall n, In n acc -> In n set) -> gen_args f set grow (m - 1) k acc ds = Ok (acc', ds') -> forall n, In n acc' -> In n set).
    { induction k as [|k IHk]; intros acc0 ds0 acc0' ds0' H0 H1; cbn [gen_args] in H1; [injection H1 as <- <-; auto|].
      apply rbind_ok in H1 as ([acc1 ds2] & H2 & H1). eapply IHk; [|exact H1]. eapply IH; eauto. }
    eapply HA; [|exact H]. intros n [<-|Hn]; auto.
Qed.

Lemma init_tree_spec fuel d cur grow ds t st' ds' :
  arity_sorted (d_set N d) -> 0 < last_terminal N arity (d_set N d) -> 1 <= cur -> (grow = false -> last_terminal N arity (d_set N d) < length (d_set N d)) ->
  init_tree N arity fuel d (cur, grow) ds = Ok (t, st', ds') ->
  sound arity t /\ nodes_in (d_set N d) (abs t) /\ height (abs t) <= cur /\ (grow = false -> full cur (abs t)).
Proof.
  intros Hs Ht Hc Hg H. unfold init_tree in H. apply rbind_ok in H as ([sq ds1] & Hq & H). apply generate_spec in Hq as (x & -> & W & I & Hh & F); auto.
  rewrite app_nil_r in H. destruct (sound_exists x W) as (t0 & Ht0 & <-). pose proof (build_complete t0 [] Ht0) as Hb. cbn [app] in Hb. rewrite Hb in H. cbn [rbind] in H.
  injection H as <- <- <-. auto.
Qed.
Lemma init_tree_total d cur grow : arity_sorted (d_set N d) -> 0 < last_terminal N arity (d_set N d) -> 1 <= cur -> (grow = false -> last_terminal N arity (d_set N d) < length (d_set N d)) ->
  exists B, forall ds, B <= length ds -> exists t st' ds', init_tree N arity cur d (cur, grow) ds = Ok (t, st', ds').
Proof.
  intros Hs Ht Hc Hg. destruct (generate_total (d_set N d) Ht cur grow Hc Hg) as [B HB]. exists B. intros ds Hd. destruct (HB cur [] ds ltac:(lia) Hd) as (acc & ds' & E & _).
  unfold init_tree. rewrite E. cbn [rbind]. apply generate_spec in E as (x & -> & W & _); auto. rewrite app_nil_r.
  destruct (sound_exists x W) as (t0 & Ht0 & <-). pose proof (build_complete t0 [] Ht0) as Hb. cbn [app] in Hb. rewrite Hb. cbn [rbind]. eauto.
Qed.
Lemma no_terminal fuel d st ds t st' ds' : (forall n, In n (d_set N d) -> 0 < arity n) -> init_tree N arity fuel d st ds <> Ok (t, st', ds').
Proof.
  intros Hno H. unfold init_tree in H. destruct st as [cur grow]. apply rbind_ok in H as ([sq ds1] & Hq & H). apply rbind_ok in H as (t0 & Hb & _).
  apply build_sound in Hb as [[_ W] [pre ->]]. destruct (has_leaf _ W) as (n & Hn & Hz).
  assert (Hin : In n (d_set N d)). { eapply generate_in in Hq; [exact Hq| |]; [intros m []|]. apply in_app_iff. now right. }
  apply Hno in Hin. lia.
Qed.
End Gp.

(** the modes and depths used one after the other: (depth, grow) *)
Definition next_mode (max : nat) (st : nat * bool) : nat * bool :=
  let (cur, grow) := st in ((if grow then if 2 <? cur then cur - 1 else max else cur), negb grow).
Lemma modes_spec max k : 2 <= max ->
  Nat.iter (2 * k) (next_mode max) (max, true) = (max - k mod (max - 1), true) /\
  Nat.iter (S (2 * k)) (next_mode max) (max, true) = (max - S k mod (max - 1), false).
Proof.
  intros Hm.
  assert (HS : forall k, next_mode max (max - k mod (max - 1), true) = (max - S k mod (max - 1), false)).
  { intros k0. unfold next_mode. cbn [negb]. f_equal. set (q := max - 1). assert (Hq : 1 <= q) by (unfold q; lia).
    pose proof (Nat.mod_upper_bound k0 q ltac:(lia)) as Hr.
    assert (E : S k0 mod q = if S (k0 mod q) =? q then 0 else S (k0 mod q)).
    { pose proof (Nat.div_mod k0 q ltac:(lia)) as D. destruct (S (k0 mod q) =? q) eqn:E; [apply Nat.eqb_eq in E|apply Nat.eqb_neq in E].
      - symmetry. apply (Nat.mod_unique _ _ (S (k0 / q))); [lia|]. rewrite Nat.mul_succ_r. lia.
      - symmetry. apply (Nat.mod_unique _ _ (k0 / q)); lia. }
    rewrite E. destruct (2 <? max - k0 mod q) eqn:E2; [apply Nat.ltb_lt in E2|apply Nat.ltb_ge in E2];
      (destruct (S (k0 mod q) =? q) eqn:E3; [apply Nat.eqb_eq in E3|apply Nat.eqb_neq in E3]); unfold q in *; lia. }
  assert (HE : forall k, Nat.iter (2 * k) (next_mode max) (max, true) = (max - k mod (max - 1), true)).
  { induction k0 as [|k0 IHk]; [cbn; f_equal; rewrite Nat.mod_0_l by lia; lia|]. replace (2 * S k0) with (S (S (2 * k0))) by lia.
    change (Nat.iter (S (S (2 * k0))) (next_mode max) (max, true)) with (next_mode max (next_mode max (Nat.iter (2 * k0) (next_mode max) (max, true)))).
    rewrite IHk, HS. reflexivity. }
  split; [apply HE|]. change (Nat.iter (S (2 * k)) (next_mode max) (max, true)) with (next_mode max (Nat.iter (2 * k) (next_mode max) (max, true))). rewrite HE. apply HS.
Qed.
