(** C129-C130: the SPEA2 archive. *)
From Coq Require Import Bool QArith Qabs Arith Lia Lqa Permutation Sorted.
From Verif Require Import Lib Outcome OrderSpec OrderLemmas BoundsModel BoundsProofs EvalModel EvalProofs DivProofs DivNear SpeaModel SpeaSpec SpeaProofs SpeaOffer.
From Coq Require Import List.
Import ListNotations.
Close Scope Q_scope.
Open Scope nat_scope.

Lemma truncated_ext d d' n a l : (forall i j, d i j = d' i j) -> truncated d n a l -> truncated d' n a l.
Proof.
  intros E T. induction T as [a l P|n a i l C T IH]; [constructor; auto|]. econstructor; [|exact IH].
  assert (X : forall k v, distances_from d a k v -> distances_from d' a k v).
  { intros k v [A B]. split; auto. rewrite (map_ext (d' k) (d k)); auto. }
  destruct C as (J & v & Dv & H). split; [auto|]. exists v. split; [auto|]. intros j Jj. destruct (H j Jj) as (w & Dw & Nw). exists w. auto.
Qed.
Lemma truncated_facts d n a l : NoDup a -> truncated d n a l -> length l + n = length a /\ NoDup l /\ incl l a.
Proof.
  intros N T. induction T as [a l P|n a i l C T IH].
  - split; [rewrite (Permutation_length P); lia|]. split; [eapply Permutation_NoDup; eauto|]. intros x J. apply (Permutation_in _ (Permutation_sym P)); auto.
  - destruct IH as (L & Nl & I); [apply others_nodup; auto|]. pose proof (others_length a i N (proj1 C)). split; [lia|]. split; [auto|].
    intros x J. apply I, in_others in J. tauto.
Qed.

Section P.
Variable G : Type.
Variable fit : G -> Q.
Variable dv : G -> Q.
Variable comp : G -> G -> bool.
Variable dist : G -> G -> Q.
Variable sort : forall T : Type, (T -> T -> bool) -> list T -> list T.
Hypothesis sort_ok : std_sort_ok sort.
Hypothesis comp_ok : strict_weak_order comp.
Hypothesis dist_sym : forall x y, dist x y = dist y x.
Notation copies := (copies G fit dv sort).

Lemma dd_apart all i j : dd G dist all i j = apart dist all i j.
Proof.
  unfold dd, apart. destruct (Nat.le_gt_cases i j).
  - rewrite Nat.min_l, Nat.max_r by lia. auto.
  - rewrite Nat.min_r, Nat.max_l by lia. destruct (nth_error all i), (nth_error all j); auto.
Qed.
Lemma values (all : list G) ks : (forall t, In t ks -> t < length all) -> exists vals, map Some vals = map (nth_error all) ks.
Proof.
  induction ks as [|t ks IH]; intros H; [exists []; auto|]. destruct IH as [vals E]; [intros; apply H; right; auto|].
  destruct (nth_error all t) as [g|] eqn:Eg; [|apply nth_error_None in Eg; specialize (H t (or_introl eq_refl)); lia].
  exists (g :: vals). cbn. rewrite E, Eg. auto.
Qed.
Lemma filter_split_length {A} (f : A -> bool) l : length (filter f l) + length (filter (fun x => negb (f x)) l) = length l.
Proof. induction l as [|a l IH]; cbn; auto. destruct (f a); cbn; lia. Qed.
Lemma filter_seq_lt n p : filter (fun t => t <? n) (seq 0 (n + p)) = seq 0 n.
Proof.
  rewrite seq_app, filter_app, filter_id, filter_none, app_nil_r; auto; intros x J; apply in_seq in J; [apply Nat.ltb_ge|apply Nat.ltb_lt]; lia.
Qed.
Lemma filter_ext_length {A} (f g : A -> bool) l : (forall x, f x = g x) -> filter f l = filter g l.
Proof. intros. apply filter_ext. auto. Qed.

(** one offer to a full archive *)
Lemma offer_full maxSize mem borne pop : length mem = borne -> maxSize <= borne ->
  let worst := sort _ comp mem in let best := map snd (copies pop) in
  exists r, replaced G fit dv worst best r /\ r <= length pop /\
  ((r = length pop /\ offer G fit dv comp dist sort maxSize (mem, borne) pop = UB) \/
   (r < length pop /\ exists mem' goods left new,
     offer G fit dv comp dist sort maxSize (mem, borne) pop = Ok (new, borne) /\
     Permutation mem' (skipn r worst ++ firstn r best) /\ good_ones G fit best r goods /\
     truncated (apart dist (mem' ++ goods)) (length goods) (seq 0 (length (mem' ++ goods))) left /\
     Permutation (map Some new) (map (nth_error (mem' ++ goods)) left))).
Proof.
  intros Lm Hm worst best. destruct (sort_ok _ comp mem comp_ok) as [Pw _]. fold worst in Pw.
  assert (Lw : length worst = borne) by (rewrite <- (Permutation_length Pw); auto).
  destruct (copies_sorted G fit dv sort sort_ok pop) as [Pc Sc].
  assert (Lc : length (copies pop) = length pop) by (apply copies_length; auto).
  assert (Sc' : StronglySorted (fun a b => worse G fit dv a b = false) (map snd (copies pop))) by exact Sc.
  destruct (replace_all G fit dv (copies pop) worst Sc') as (r & R & Lr & H).
  exists r. split; [exact R|]. split; [lia|]. unfold offer. replace (borne <? maxSize) with false by (symmetry; apply Nat.ltb_ge; auto).
  fold worst. rewrite Lw in H. destruct H as [[-> Hr]|(mem' & -> & Pm)]; [left; split; [lia|auto]|]. cbn [rbind].
  destruct (nth_error (copies pop) r) as [c|] eqn:Ec; cbn [of_opt rbind].
  2:{ left. apply nth_error_None in Ec. split; [lia|auto]. }
  assert (Hr : r < length (copies pop)) by (apply nth_error_Some; congruence).
  right. split; [lia|]. destruct (skipn r (copies pop)) as [|c0 rest] eqn:Sk.
  { assert (Z : length (skipn r (copies pop)) = 0) by (rewrite Sk; auto). rewrite skipn_length in Z. lia. }
  assert (c0 = c).
  { assert (X : nth_error (skipn r (copies pop)) 0 = Some c0) by (rewrite Sk; auto). rewrite skipn_nth_error, Nat.add_0_r in X. congruence. } subst c0.
  assert (Lm' : length mem' = borne).
  { rewrite (Permutation_length Pm), app_length, skipn_length, firstn_length, map_length.
    assert (r <= length worst); [|unfold best; lia]. destruct R as [R _]. destruct r as [|k]; [lia|]. destruct (R k) as (a & _ & Ea & _); [lia|].
    assert (k < length worst) by (apply nth_error_Some; congruence). lia. }
  assert (Eb : best = firstn r best ++ map snd (c :: rest)).
  { rewrite <- (firstn_skipn r best) at 1. f_equal. unfold best. rewrite <- Sk. clear. revert r. induction (copies pop) as [|x l IH]; intros [|r]; cbn; auto. }
  destruct (qltb (-1) (fit (snd c))) eqn:Q.
  - destruct (good_run_ok G fit dv dist (c :: rest)) as (Lg & Gd & Nx). set (p := good_run G fit (c :: rest)) in *.
    set (goods := map snd (firstn p (c :: rest))). assert (Lgd : length goods = p) by (unfold goods; rewrite map_length, firstn_length; lia).
    set (all := mem' ++ goods). assert (La : length all = borne + p) by (unfold all; rewrite app_length; lia).
    assert (El : forall k x, nth_error all k = Some x -> element G borne r (copies pop) mem' k = Ok x).
    { intros k x Ek. unfold element. destruct (Nat.ltb_spec k borne).
      - unfold all in Ek. rewrite nth_error_app1 in Ek by lia. rewrite Ek. auto.
      - unfold all in Ek. rewrite nth_error_app2, Lm' in Ek by lia. unfold goods in Ek. rewrite nth_error_map' in Ek.
        assert (Hk : k - borne < p). { assert (X : nth_error (firstn p (c :: rest)) (k - borne) <> None) by (intros Z; rewrite Z in Ek; discriminate). apply nth_error_Some in X. rewrite firstn_length in X. lia. }
        rewrite firstn_nth_error in Ek by auto. rewrite <- Sk, skipn_nth_error in Ek. rewrite (Nat.add_comm (k - borne) r).
        destruct (nth_error (copies pop) (r + (k - borne))) as [y|]; [|discriminate]. cbn in Ek |- *. injection Ek as <-. auto. }
    pose proof (matrix_ok G dist all (element G borne r (copies pop) mem') El) as Mx. unfold distances. rewrite La in Mx. rewrite Mx. cbn [rbind]. rewrite <- La in Mx |- *.
    destruct (sorted_rows_ok G dist sort sort_ok all) as [Ro So]. cbv zeta in Ro, So. 
    destruct (cut_ok sort sort_ok (dd G dist all) borne p (seq 0 (length all)) _ [] (seq_NoDup _ _) ltac:(rewrite seq_length; lia) Ro ltac:(intros _; exact So))
      as (rows' & removed & -> & T & Pr). cbn [rbind app].
    destruct (truncated_facts _ _ _ _ (seq_NoDup _ _) T) as (Ll & Nl & Il). rewrite seq_length, map_length in Ll.
    set (surv := map snd rows') in *. assert (Ls : length surv = borne) by (unfold surv; rewrite map_length; lia).
    rewrite kept_ok by (unfold surv in Ls; rewrite map_length in Ls; auto). fold surv. cbn [rbind].
    set (ks := filter (fun t => borne <=? t) surv). set (nk := filter (fun t => t <? borne) removed). set (old := filter (fun t => t <? borne) surv).
    assert (Ps : Permutation (seq 0 borne) (nk ++ old)).
    { rewrite <- (filter_seq_lt borne p), <- La. eapply Permutation_trans; [apply filter_permutes; exact Pr|]. rewrite filter_app. auto. }
    assert (Ko : length old + length ks = borne).
    { rewrite <- Ls. rewrite <- (filter_split_length (fun t => t <? borne) surv). f_equal. unfold ks. f_equal. apply filter_ext.
      intros t. destruct (Nat.ltb_spec t borne), (Nat.leb_spec borne t); cbn; auto; lia. }
    assert (Lk : length ks = length nk). { apply Permutation_length in Ps. rewrite seq_length, app_length in Ps. lia. }
    assert (Hks : forall t, In t ks -> borne <= t < length all).
    { intros t J. apply filter_In in J as [J1 J2]. apply Nat.leb_le in J2. apply Il, in_seq in J1. lia. }
    destruct (values all ks) as [vals Ev]; [intros t J; apply Hks; auto|].
    assert (Lv : length vals = length ks) by (apply (f_equal (@length _)) in Ev; rewrite !map_length in Ev; auto).
    assert (Nd : NoDup (nk ++ old)) by (eapply Permutation_NoDup; [exact Ps|apply seq_NoDup]).
    rewrite (exchange_ok G borne r (copies pop) ks nk mem' vals); auto.
    + cbn [rbind]. exists mem', goods, surv. eexists. split; [reflexivity|]. split; [exact Pm|]. split.
      { exists (map snd (skipn p (c :: rest))). split; [unfold goods; rewrite <- map_app, firstn_skipn; exact Eb|]. split.
        - intros g J. apply in_map_iff in J as (x & <- & J). auto.
        - intros g rest' E. destruct (skipn p (c :: rest)) as [|x xs] eqn:Ex; [discriminate|]. cbn in E. injection E as <- _. eapply Nx; eauto. }
      split.
      { fold all. rewrite Lgd. eapply truncated_ext; [|exact T]. apply dd_apart. }
      fold all. eapply Permutation_trans; [apply (sets_perm G fit dv dist nk vals old mem')|].
      * clear -Nd. induction nk as [|a nk IH]; [constructor|]. cbn in Nd. inversion Nd; subst. constructor; auto. intros J. apply H1, in_or_app. auto.
      * lia.
      * rewrite Lm'. exact Ps.
      * rewrite Ev. rewrite (map_ext_in (nth_error mem') (nth_error all)).
        -- rewrite <- map_app. apply Permutation_map. unfold ks, old. clear. induction surv as [|t s IH]; cbn [filter app]; auto.
           destruct (Nat.ltb_spec t borne), (Nat.leb_spec borne t); try lia; cbn [app]; [|constructor; auto].
           eapply Permutation_trans; [|constructor; exact IH]. apply Permutation_sym, Permutation_middle.
        -- intros t J. apply filter_In in J as [_ J]. apply Nat.ltb_lt in J. unfold all. rewrite nth_error_app1 by lia. auto.
    + intros u J. apply filter_In in J as [_ J]. apply Nat.ltb_lt in J. auto.
    + intros k t Ek. assert (J : In t ks) by (eapply nth_error_In; eauto). pose proof (Hks t J) as Ht.
      assert (X : nth_error (map Some vals) k = nth_error (map (nth_error all) ks) k) by (rewrite Ev; auto). rewrite !nth_error_map', Ek in X. cbn in X.
      destruct (nth_error vals k) as [v|] eqn:Evk; [|discriminate]. cbn in X. injection X as X. symmetry in X. specialize (El t v X). unfold element in El.
      replace (t <? borne) with false in El by (symmetry; apply Nat.ltb_ge; lia). destruct (nth_error (copies pop) (t - borne + r)) as [y|]; [|discriminate].
      cbn in El. injection El as <-. eauto.
  - exists mem', [], (seq 0 (length mem')), mem'. rewrite app_nil_r. split; [auto|]. split; [exact Pm|]. split.
    { exists (map snd (c :: rest)). split; [exact Eb|]. split; [intros g []|]. intros g rest' E. injection E as <- _. apply qltb_ge. auto. }
    split; [constructor; auto|].
    replace (map (nth_error mem') (seq 0 (length mem'))) with (map Some mem'); auto.
    apply nth_error_ext. intros i. rewrite !nth_error_map'. destruct (Nat.lt_ge_cases i (length mem')) as [Hi|Hi].
    + rewrite nth_error_seq' by auto. cbn. destruct (nth_error mem' i) eqn:X; auto. apply nth_error_None in X. lia.
    + replace (nth_error mem' i) with (@None G) by (symmetry; apply nth_error_None; auto).
      replace (nth_error (seq 0 (length mem')) i) with (@None nat); auto. symmetry. apply nth_error_None. rewrite seq_length. auto.
Qed.
(** one offer to an archive that is not full *)
Lemma offer_fill maxSize mem borne pop : borne < maxSize ->
  let n := Nat.min (length pop) (maxSize - borne) in
  offer G fit dv comp dist sort maxSize (mem, borne) pop = Ok (mem ++ firstn n (map snd (copies pop)), borne + n).
Proof.
  intros H n. unfold offer. replace (borne <? maxSize) with true by (symmetry; apply Nat.ltb_lt; auto). fold n.
  assert (Lc : length (copies pop) = length pop) by (apply copies_length; auto).
  match goal with |- for_in _ ?b _ = _ => destruct (for_in_seq (fun k st => st = (mem ++ firstn k (map snd (copies pop)), borne + k)) b n 0 (mem, borne)) as (m & E & Hm) end.
  - cbn. rewrite app_nil_r, Nat.add_0_r. auto.
  - intros k m Hk ->. destruct (nth_error (copies pop) k) as [c|] eqn:Ec; [|apply nth_error_None in Ec; lia]. cbn [of_opt rbind fst snd]. eexists. split; [reflexivity|].
    rewrite (firstn_snoc (map snd (copies pop)) k (snd c)) by (rewrite nth_error_map', Ec; auto). rewrite app_assoc. f_equal. lia.
  - rewrite E. f_equal. exact Hm.
Qed.
End P.

(** C129: while the archive is not full, the best individuals of the population are added, as many
    as there is room for *)
Theorem C129_filling (G : Type) (fit dv : G -> Q) comp dist sort maxSize (mem pop : list G) : std_sort_ok sort -> length mem < maxSize ->
  let n := Nat.min (length pop) (maxSize - length mem) in
  exists taken, offer G fit dv comp dist sort maxSize (mem, length mem) pop = Ok (mem ++ taken, length mem + n) /\
  best_n (fun a b => qltb (worth G fit dv a) (worth G fit dv b)) pop n taken.
Proof.
  intros Hs H n. eexists. split; [apply offer_fill; auto|]. apply sorted_best_n; [|unfold n; lia].
  exact (copies_sorted G fit dv sort Hs pop).
Qed.
Print Assumptions C129_filling.

(** C129: offering a population to a full archive.  [r] of the worst members are replaced by the
    best individuals; then the individuals of fitness above -1 that follow join, and the truncation
    of SPEA2 brings the archive back to its size *)
Theorem C129_full (G : Type) (fit dv : G -> Q) comp dist sort maxSize (mem pop new : list G) (b : nat) :
  std_sort_ok sort -> strict_weak_order comp -> (forall x y, dist x y = dist y x) -> maxSize <= length mem ->
  offer G fit dv comp dist sort maxSize (mem, length mem) pop = Ok (new, b) ->
  b = length mem /\ length new = length mem /\
  exists worst best r mem' goods left,
    sorted_by comp mem worst /\ sorted_by (fun a b => qltb (worth G fit dv b) (worth G fit dv a)) pop best /\
    replaced G fit dv worst best r /\ Permutation mem' (skipn r worst ++ firstn r best) /\
    good_ones G fit best r goods /\
    truncated (apart dist (mem' ++ goods)) (length goods) (seq 0 (length (mem' ++ goods))) left /\
    Permutation (map Some new) (map (nth_error (mem' ++ goods)) left).
Proof.
  intros Hs Hc Hd Hm E.
  destruct (offer_full G fit dv comp dist sort Hs Hc Hd maxSize mem (length mem) pop eq_refl Hm) as (r & R & _ & [[_ X]|(Lr & mem' & goods & left & new' & E' & Pm & Gd & T & Pn)]).
  { rewrite X in E. discriminate. }
  rewrite E in E'. injection E' as <- ->. split; [auto|]. split.
  - apply Permutation_length in Pn. rewrite !map_length in Pn. destruct (truncated_facts _ _ _ _ (seq_NoDup _ _) T) as (L & _ & _).
    rewrite seq_length, app_length in L. assert (length mem' = length mem); [|lia].
    destruct (Hs _ comp mem Hc) as [Pw _]. rewrite (Permutation_length Pm), app_length, skipn_length, firstn_length, map_length, (copies_length G fit dv sort Hs).
    assert (r <= length (sort G comp mem)); [|rewrite (Permutation_length Pw); lia]. destruct R as [R _]. destruct r as [|k]; [lia|]. destruct (R k) as (a & _ & Ea & _); [lia|].
    assert (k < length (sort G comp mem)) by (apply nth_error_Some; congruence). lia.
  - exists (sort _ comp mem), (map snd (copies G fit dv sort pop)), r, mem', goods, left. split; [apply Hs; auto|]. split; [exact (copies_sorted G fit dv sort Hs pop)|]. auto 10.
Qed.
Print Assumptions C129_full.

(** C129: with populations that are not smaller than the capacity, which the documentation
    requires, every offer is defined, unless the capacity is 1; the archive has as many members as
    were offered up to the capacity, all of them offered *)
Theorem C129_size (G : Type) (fit dv : G -> Q) comp dist sort maxSize (pops : list (list G)) :
  std_sort_ok sort -> strict_weak_order comp -> (forall x y, dist x y = dist y x) ->
  (forall pop, In pop pops -> maxSize <= length pop /\ 2 <= length pop) ->
  exists mem, offers G fit dv comp dist sort maxSize ([], 0) pops = Ok (mem, length mem) /\
  length mem = Nat.min maxSize (length (concat pops)) /\ incl mem (concat pops).
Proof.
  intros Hs Hc Hd Hp.
  assert (K : forall pops mem seen, (forall pop, In pop pops -> maxSize <= length pop /\ 2 <= length pop) ->
    length mem = Nat.min maxSize (length seen) -> incl mem seen ->
    exists mem', offers G fit dv comp dist sort maxSize (mem, length mem) pops = Ok (mem', length mem') /\
    length mem' = Nat.min maxSize (length (seen ++ concat pops)) /\ incl mem' (seen ++ concat pops)).
  { clear pops Hp. induction pops as [|pop pops IH]; intros mem seen Hp L I; cbn [offers concat].
    - exists mem. rewrite app_nil_r. auto.
    - assert (exists new, offer G fit dv comp dist sort maxSize (mem, length mem) pop = Ok (new, length new) /\ length new = Nat.min maxSize (length (seen ++ pop)) /\ incl new (seen ++ pop)) as (new & -> & Ln & In').
      { destruct (Hp pop (or_introl eq_refl)) as [Hp1 Hp2]. destruct (Nat.lt_ge_cases (length mem) maxSize) as [Lt|Ge].
        - rewrite offer_fill by auto. pose proof (copies_length G fit dv sort Hs pop) as Lc. destruct (copies_sorted G fit dv sort Hs pop) as [Pc _].
          eexists. split; [f_equal; f_equal; rewrite app_length, firstn_length, map_length; lia|]. split; [rewrite !app_length, firstn_length, map_length; lia|].
          intros x J. apply in_app_or in J as [J|J]; apply in_or_app; [left; auto|right]. apply (Permutation_in _ (Permutation_sym Pc)).
          rewrite <- (firstn_skipn (Nat.min (length pop) (maxSize - length mem)) (map snd (copies G fit dv sort pop))). apply in_or_app. auto.
        - destruct (offer_full G fit dv comp dist sort Hs Hc Hd maxSize mem (length mem) pop eq_refl Ge) as (r & R & Lr & [[Er _]|(_ & mem' & goods & left & new & E & Pm & Gd & T & Pn)]).
          + exfalso. destruct (Hs _ comp mem Hc) as [Pw _]. destruct R as [_ [R|[R|[R _]]]]; rewrite <- (Permutation_length Pw) in R; lia.
          + pose proof (C129_full G fit dv comp dist sort maxSize mem pop new (length mem) Hs Hc Hd Ge E) as (_ & Ln & _).
            exists new. rewrite Ln. split; [auto|]. split; [rewrite app_length; lia|].
            intros x J. assert (K : In x (mem' ++ goods)).
            { apply (in_map Some) in J. apply (Permutation_in _ Pn) in J. apply in_map_iff in J as (k & Ek & _). eapply nth_error_In; eauto. }
            destruct (copies_sorted G fit dv sort Hs pop) as [Pc _]. destruct (Hs _ comp mem Hc) as [Pw _]. apply in_or_app.
            assert (Bp : forall y, In y (map snd (copies G fit dv sort pop)) -> In y pop) by (intros y; apply Permutation_in, Permutation_sym; exact Pc).
            apply in_app_or in K as [K|K].
            * apply (Permutation_in _ Pm), in_app_or in K as [K|K]; [left|right].
              -- apply I. apply (Permutation_in _ (Permutation_sym Pw)). rewrite <- (firstn_skipn r (sort G comp mem)). apply in_or_app. auto.
              -- apply Bp. rewrite <- (firstn_skipn r (map snd (copies G fit dv sort pop))). apply in_or_app. auto.
            * right. apply Bp. destruct Gd as (rest & -> & _). apply in_or_app. right. apply in_or_app. auto. }
      cbn [rbind]. destruct (IH new (seen ++ pop)) as (mem' & E & L' & I'); auto; [intros; apply Hp; right; auto|]. exists mem'. rewrite <- app_assoc in *. auto. }
  apply (K pops [] [] Hp); [cbn; lia|intros x []].
Qed.
Print Assumptions C129_size.

(** non-vacuity: individuals are (fitness, diversity), the distance is that of the diversities *)
Definition eg_dist (x y : Q * Q) : Q := Qred (Qabs (snd x - snd y)).
Definition eg_comp (x y : Q * Q) : bool := qltb (fst x + snd x) (fst y + snd y).
Notation eg_offer := (offer (Q * Q) fst snd eg_comp eg_dist the_sort 3).
Example C129_eg : std_sort_ok the_sort /\ strict_weak_order eg_comp /\ (forall x y, eg_dist x y = eg_dist y x) /\
  eg_offer ([], 0) [((-3)%Q, (1#2)%Q); ((-2)%Q, (1#4)%Q); ((-5)%Q, (1#8)%Q); ((-1)%Q, (1#16)%Q)] =
    Ok ([((-1)%Q, (1#16)%Q); ((-2)%Q, (1#4)%Q); ((-3)%Q, (1#2)%Q)], 3) /\
  eg_offer ([((-1)%Q, (1#16)%Q); ((-2)%Q, (1#4)%Q); ((-3)%Q, (1#2)%Q)], 3) [(0%Q, (1#20)%Q); (0%Q, (1#3)%Q); (0%Q, (3#10)%Q); ((-7)%Q, 0%Q)] =
    Ok ([(0%Q, (1#20)%Q); (0%Q, (1#3)%Q); (0%Q, (3#10)%Q)], 3).
Proof.
  split; [apply the_sort_ok|]. split; [apply (qltb_swo (fun x : Q * Q => (fst x + snd x)%Q))|]. split.
  - intros x y. apply Qred_complete. rewrite <- Qabs_opp. apply Qabs_wd. ring.
  - vm_compute. auto.
Qed.

(** C130: an empty population makes a full archive read outside the population *)
Theorem C130_empty_population (G : Type) (fit dv : G -> Q) comp dist sort maxSize (mem : list G) :
  std_sort_ok sort -> strict_weak_order comp -> (forall x y, dist x y = dist y x) -> maxSize <= length mem ->
  offer G fit dv comp dist sort maxSize (mem, length mem) [] = UB.
Proof.
  intros Hs Hc Hd Hm. destruct (offer_full G fit dv comp dist sort Hs Hc Hd maxSize mem (length mem) [] eq_refl Hm) as (r & _ & Lr & [[_ E]|[L _]]); [exact E|cbn in *; lia].
Qed.
Print Assumptions C130_empty_population.

(** C130: offering one individual to a full archive is undefined exactly when it replaces the worst
    member *)
Theorem C130_one_individual (G : Type) (fit dv : G -> Q) comp dist sort maxSize (mem : list G) (g : G) :
  std_sort_ok sort -> strict_weak_order comp -> (forall x y, dist x y = dist y x) -> maxSize <= length mem ->
  offer1 G fit dv comp dist sort maxSize (mem, length mem) g = UB <->
  exists a rest, sort G comp mem = a :: rest /\ yields G fit dv a g.
Proof.
  intros Hs Hc Hd Hm. unfold offer1.
  assert (B : map snd (copies G fit dv sort [g]) = [g]).
  { destruct (copies_sorted G fit dv sort Hs [g]) as [P _]. apply Permutation_length_1_inv in P. auto. }
  destruct (offer_full G fit dv comp dist sort Hs Hc Hd maxSize mem (length mem) [g] eq_refl Hm) as (r & R & Lr & H).
  rewrite B in R. destruct R as [R1 R2]. destruct H as [[Er E]|(L & m & gs & lf & new & E & _)]; rewrite E.
  - split; [intros _|auto]. cbn in Er. subst. destruct (R1 0) as (a & p & Ea & Ep & Y); [lia|]. cbn in Ep. injection Ep as <-.
    destruct (sort G comp mem) as [|a' rest]; [discriminate|]. cbn in Ea. injection Ea as ->. eauto.
  - split; [discriminate|]. cbn in L. assert (r = 0) by lia. subst. intros (a & rest & Es & Y). rewrite Es in R2.
    destruct R2 as [[R _]|[[R _]|[_ R]]]; [discriminate|lia|]. exfalso. apply (R a g eq_refl eq_refl Y).
Qed.
Print Assumptions C130_one_individual.
(** so "every individual can be offered" is false *)
Theorem C130_always_defined_refuted : ~ forall (G : Type) (fit dv : G -> Q) comp dist sort maxSize (mem : list G) (g : G),
  std_sort_ok sort -> strict_weak_order comp -> (forall x y, dist x y = dist y x) ->
  offers G fit dv comp dist sort maxSize ([], 0) [mem] = Ok (mem, length mem) ->
  offer1 G fit dv comp dist sort maxSize (mem, length mem) g <> UB.
Proof.
  intros H. destruct C129_eg as (H1 & H2 & H3 & _).
  refine (H (Q * Q)%type fst snd eg_comp eg_dist the_sort 2 [((-1)%Q, (1#16)%Q); ((-2)%Q, (1#4)%Q)] (0%Q, (1#2)%Q) H1 H2 H3 _ _); vm_compute; auto.
Qed.
Print Assumptions C130_always_defined_refuted.
(** with a capacity of 1 and populations of 1, which the documentation allows, it happens too *)
Example C130_capacity_one : offers (Q * Q) fst snd eg_comp eg_dist the_sort 1 ([], 0) [[((-2)%Q, (1#4)%Q)]; [(0%Q, (1#2)%Q)]] = UB.
Proof. vm_compute. auto. Qed.
(** C130: a member is kept with the fitness it had when it was added, and a dominated member with
    fitness above -1 is never replaced by a better individual that is worse than -1 *)
Theorem C130_stale_member (G : Type) (fit dv : G -> Q) comp dist sort maxSize (mem pop new : list G) b :
  std_sort_ok sort -> strict_weak_order comp -> (forall x y, dist x y = dist y x) -> maxSize <= length mem ->
  (forall a, In a mem -> -1 < fit a)%Q -> (forall p, In p pop -> fit p <= -1)%Q ->
  offer G fit dv comp dist sort maxSize (mem, length mem) pop = Ok (new, b) -> Permutation mem new.
Proof.
  intros Hs Hc Hd Hm Ha Hp E. destruct (C129_full G fit dv comp dist sort maxSize mem pop new b Hs Hc Hd Hm E) as (_ & _ & w & bf & r & mem' & goods & left & [Pw _] & [Pb _] & [R1 _] & Pm & (rest & Eb & Gg & _) & T & Pn).
  assert (r = 0). { destruct r as [|k]; auto. destruct (R1 0) as (a & p & Ea & _ & _ & Y); [lia|]. apply nth_error_In in Ea.
    specialize (Ha a (Permutation_in _ (Permutation_sym Pw) Ea)). exfalso. revert Ha Y. apply Qlt_not_le. }
  subst r. cbn [skipn firstn] in *. rewrite app_nil_r in Pm. assert (goods = []).
  { destruct goods as [|g gs]; auto. exfalso. apply (Qlt_not_le _ _ (Gg g (or_introl eq_refl))). apply Hp. apply (Permutation_in _ (Permutation_sym Pb)). rewrite Eb. cbn. auto. }
  subst goods. rewrite app_nil_r in *. inversion T as [al lf P|]; subst. cbn [length] in *.
  assert (Q : Permutation (map Some new) (map Some mem')).
  { eapply Permutation_trans; [exact Pn|]. eapply Permutation_trans; [apply Permutation_map, Permutation_sym; exact P|].
    replace (map (nth_error mem') (seq 0 (length mem'))) with (map Some mem'); auto. apply nth_error_ext. intros i. rewrite !nth_error_map'.
    destruct (Nat.lt_ge_cases i (length mem')) as [Hi|Hi].
    - rewrite nth_error_seq' by auto. cbn. destruct (nth_error mem' i) eqn:X; auto. apply nth_error_None in X. lia.
    - replace (nth_error mem' i) with (@None G) by (symmetry; apply nth_error_None; auto).
      replace (nth_error (seq 0 (length mem')) i) with (@None nat); auto. symmetry. apply nth_error_None. rewrite seq_length. auto. }
  apply Permutation_sym. eapply Permutation_trans; [|eapply Permutation_trans; [exact Pm|apply Permutation_sym; exact Pw]].
  apply Permutation_map_inv in Q as (l & El & Pl). assert (new = l). { clear -El. revert l El. induction new as [|x n IH]; intros [|y l] El; cbn in El; try discriminate; auto. injection El as -> El. f_equal. auto. }
  subst. apply Permutation_sym. auto.
Qed.
Print Assumptions C130_stale_member.
