From Coq Require Import List Arith Bool Lia.
From Verif Require Import Lib Outcome OrderSpec OrderLemmas LsModel StopModel StopSpec.
From Coq Require Import List.
Import ListNotations.
Open Scope nat_scope.

Lemma each_parts {A} a p n (o : option A) : all_parts a p n o (each a p n o).
Proof.
  unfold all_parts, each. rewrite map_length, seq_length. split; auto. intros i e H.
  rewrite nth_error_map' in H. destruct (nth_error (seq 0 n) i) eqn:E; [|discriminate]. cbn in H. injection H as <-.
  assert (i < n) by (apply nth_error_lt in E; now rewrite seq_length in E).
  rewrite nth_error_seq' in E by lia. injection E as <-. reflexivity.
Qed.
Lemma each_no_cont {A} a p n (o : option A) e : In e (each a p n o) -> p <> Cont -> e_part e <> Cont.
Proof. intros H Hp. apply in_map_iff in H as (i & <- & _). exact Hp. Qed.

Lemma ask_all_spec {A} (ans : nat -> A -> list (event A) -> bool) x : forall is log b,
  exists b', ask_all ans is x log b = (b', log ++ map (fun i => Ev Call Cont i (Some x)) is) /\
    (b' = true <-> b = true /\ forall l1 l2 i, is = l1 ++ i :: l2 -> ans i x (log ++ map (fun i => Ev Call Cont i (Some x)) l1) = true).
Proof.
  induction is as [|i r IH]; intros log b; cbn.
  - exists b. rewrite app_nil_r. split; auto. split; [|tauto]. intros ->. split; auto. intros l1 l2 i H. now destruct l1.
  - destruct (IH (log ++ [Ev Call Cont i (Some x)]) (if ans i x log then b else false)) as (b' & -> & Hb).
    exists b'. rewrite <- app_assoc. cbn. split; auto. rewrite Hb. split.
    + intros [H1 H2]. destruct (ans i x log) eqn:E; [|discriminate]. split; auto. intros [|j l1] l2 i0 H; cbn in H; injection H as <- H.
      * cbn. now rewrite app_nil_r.
      * cbn. specialize (H2 l1 l2 i0 H). rewrite <- app_assoc in H2. exact H2.
    + intros [-> H2]. assert (E := H2 [] r i eq_refl). cbn in E. rewrite app_nil_r in E. rewrite E. split; auto.
      intros l1 l2 i0 H. rewrite <- app_assoc. apply (H2 (i :: l1) l2 i0). now rewrite H.
Qed.

Lemma split_mid {A} (P : A -> Prop) : forall (pre : list A) es l1 e l2, (forall a, In a pre -> ~ P a) -> P e -> pre ++ es = l1 ++ e :: l2 ->
  exists l1', l1 = pre ++ l1' /\ es = l1' ++ e :: l2.
Proof.
  induction pre as [|a pre IH]; intros es l1 e l2 Hn He H; cbn in *.
  - exists l1. auto.
  - destruct l1 as [|b l1]; cbn in H; injection H as -> H.
    + destruct (Hn e); auto.
    + destruct (IH es l1 e l2) as (l1' & -> & ->); auto. exists l1'. auto.
Qed.
(** the answers of a group of continuators, seen in a whole iteration *)
Lemma ask_agree {A} (ans : nat -> A -> list (event A) -> bool) x n log pre :
  (forall e, In e pre -> e_part e <> Cont) ->
  exists b', ask_all ans (seq 0 n) x (log ++ pre) true = (b', log ++ pre ++ each Call Cont n (Some x)) /\
    (b' = true <-> all_agree ans log (pre ++ each Call Cont n (Some x))).
Proof.
  intros Hp. destruct (ask_all_spec ans x (seq 0 n) (log ++ pre) true) as (b' & -> & Hb). exists b'. rewrite <- app_assoc. split; auto.
  rewrite Hb. unfold all_agree. split.
  - intros [_ H] l1 l2 i y E. destruct (split_mid (fun e : event A => e_part e = Cont) pre _ l1 (Ev Call Cont i (Some y)) l2 Hp eq_refl E) as (l1' & -> & E').
    unfold each in E'. apply map_eq_app in E' as (a & b & Es & <- & Eb). destruct b as [|i0 b]; [discriminate|]. cbn in Eb. injection Eb as -> <- _.
    specialize (H a b i Es). now rewrite app_assoc.
  - intros H. split; auto. intros l1 l2 i E. rewrite <- app_assoc. apply (H _ (map (fun i => Ev Call Cont i (Some x)) l2)).
    unfold each. rewrite E, map_app, <- app_assoc. reflexivity.
Qed.

Section Mo.
Variables (T : Type) (ans : nat -> T -> list (event T) -> bool) (p : mo_parts).
Definition due_list (c a n : nat) (s : T) : list (event T) :=
  map (fun i => Ev Call Stat i (Some s)) (filter (fun i => (c + (i - a)) mod m_interval p =? 0) (seq a n)).
Lemma stats_loop_spec (s : T) : forall n a c log, n = 0 \/ 0 < m_interval p ->
  stats_loop T p (seq a n) s c log = Ok (c + n, log ++ due_list c a n s).
Proof.
  induction n as [|n IH]; intros a c log Hi; cbn [seq stats_loop].
  - unfold due_list. cbn. now rewrite Nat.add_0_r, app_nil_r.
  - destruct Hi as [|Hi]; [discriminate|]. destruct (m_interval p =? 0) eqn:E; [apply Nat.eqb_eq in E; lia|].
    rewrite IH by auto. f_equal. f_equal; [lia|]. unfold due_list. cbn [seq filter].
    replace (c + (a - a)) with c by lia.
    assert (Ef : filter (fun i => (S c + (i - S a)) mod m_interval p =? 0) (seq (S a) n) = filter (fun i => (c + (i - a)) mod m_interval p =? 0) (seq (S a) n)).
    { apply filter_ext_in. intros i Hin. apply in_seq in Hin. now replace (S c + (i - S a)) with (c + (i - a)) by lia. }
    rewrite Ef. destruct (c mod m_interval p =? 0); auto. cbn. now rewrite <- app_assoc.
Qed.

Lemma filter_seq_sorted (f : nat -> bool) : forall n a k1 k2 x y, k1 < k2 ->
  nth_error (filter f (seq a n)) k1 = Some x -> nth_error (filter f (seq a n)) k2 = Some y -> x < y.
Proof.
  induction n as [|n IH]; intros a k1 k2 x y Hk; cbn; [now destruct k1|].
  destruct (f a) eqn:E; [|apply IH; auto]. destruct k1 as [|k1]; cbn.
  - intros [= <-]. destruct k2 as [|k2]; [lia|]. cbn. intros H. apply nth_error_In, filter_In in H as [H _]. apply in_seq in H. lia.
  - destruct k2 as [|k2]; [lia|]. cbn. apply IH. lia.
Qed.
Lemma due_list_spec c s : due_stats (m_stats p) (fun i => (c + i) mod m_interval p = 0) s (due_list c 0 (m_stats p) s).
Proof.
  unfold due_list. repeat split.
  - intros H. apply in_map_iff in H as (i & <- & H). apply filter_In in H as [H1 H2]. apply in_seq in H1. apply Nat.eqb_eq in H2.
    rewrite Nat.sub_0_r in H2. exists i. repeat split; auto; lia.
  - intros (i & H1 & H2 & ->). apply in_map_iff. exists i. split; auto. apply filter_In. rewrite Nat.sub_0_r. split; [apply in_seq; lia|now apply Nat.eqb_eq].
  - apply FinFun.Injective_map_NoDup; [intros i j [= ->]; auto|]. apply NoDup_filter, seq_NoDup.
  - intros a b i j x y Hab Ha Hb. rewrite nth_error_map' in Ha, Hb.
    destruct (nth_error (filter _ _) a) eqn:Ea in Ha; [|discriminate]. destruct (nth_error (filter _ _) b) eqn:Eb in Hb; [|discriminate].
    cbn in Ha, Hb. injection Ha as -> _. injection Hb as -> _. eapply filter_seq_sorted; eauto.
Qed.

Definition good_parts : Prop := m_stats p = 0 \/ 0 < m_interval p.
Lemma call_spec s c log : good_parts ->
  exists b it, mocp_call T ans p s (c, log) = Ok (b, (c + m_stats p, log ++ it)) /\
    mo_iteration p (fun i => (c + i) mod m_interval p = 0) s it /\ (b = true <-> all_agree ans log it).
Proof.
  intros Hg. unfold mocp_call. cbn [fst snd]. rewrite stats_loop_spec by auto. cbn [rbind].
  set (pre := due_list c 0 (m_stats p) s ++ each Call Upd (m_upds p) None ++ each Call MoUpd (m_moupds p) None ++ each Call Mon (m_mons p) None).
  destruct (ask_agree ans s (m_conts p) log pre) as (b & E & Hb).
  { intros e He. unfold pre in He. rewrite !in_app_iff in He. destruct He as [He|[He|[He|He]]].
    - apply in_map_iff in He as (i & <- & _). discriminate.
    - apply (each_no_cont _ _ _ _ _ He). discriminate.
    - apply (each_no_cont _ _ _ _ _ He). discriminate.
    - apply (each_no_cont _ _ _ _ _ He). discriminate. }
  rewrite <- app_assoc. change (due_list c 0 (m_stats p) s ++ each Call Upd (m_upds p) None ++ each Call MoUpd (m_moupds p) None ++ each Call Mon (m_mons p) None) with pre.
  rewrite E. exists b, (pre ++ each Call Cont (m_conts p) (Some s)). split; auto. split; auto.
  unfold pre, mo_iteration. rewrite <- !app_assoc.
  apply order_cons; [apply due_list_spec|]. apply order_cons; [apply each_parts|]. apply order_cons; [apply each_parts|].
  apply order_cons; [apply each_parts|]. rewrite <- (app_nil_r (each Call Cont _ _)). apply order_cons; [apply each_parts|constructor].
Qed.

Lemma loop_spec : good_parts -> forall sols s c log,
  exists n its c', mocp_loop T ans p sols s (c, log) = Ok (n, last (firstn n sols) s, (c', log ++ concat its)) /\
    n <= length sols /\ length its = n /\
    (forall k s it, nth_error sols k = Some s -> nth_error its k = Some it -> mo_iteration p (fun i => (c + k * m_stats p + i) mod m_interval p = 0) s it) /\
    (forall k it, nth_error its k = Some it -> S k < n -> all_agree ans (log ++ concat (firstn k its)) it) /\
    (n < length sols -> exists k it, n = S k /\ nth_error its k = Some it /\ ~ all_agree ans (log ++ concat (firstn k its)) it).
Proof.
  intros Hg. induction sols as [|s' r IH]; intros s c log; cbn [mocp_loop].
  - exists 0, [], c. cbn. rewrite app_nil_r. repeat split; auto; try lia; intros [|k]; discriminate.
  - destruct (call_spec s' c log Hg) as (b & it & -> & Hit & Hb). cbn [rbind]. destruct b.
    + destruct (IH s' (c + m_stats p) (log ++ it)) as (n & its & c' & -> & Hn & Hl & H1 & H2 & H3). cbn [rbind].
      exists (S n), (it :: its), c'. cbn [firstn concat length]. rewrite <- app_assoc. split; [|split; [lia|split; [lia|split; [|split]]]].
      * f_equal. f_equal. f_equal. clear. destruct (firstn n r) eqn:E; auto. revert t l s s' E. intros t l s s' _. cbn. revert t. induction l; intros; auto. cbn. apply IHl.
      * intros [|k] s0 it0 Hs Hi; cbn in Hs, Hi.
        -- injection Hs as <-. injection Hi as <-. cbn. rewrite Nat.add_0_r. exact Hit.
        -- replace (c + S k * m_stats p) with (c + m_stats p + k * m_stats p) by lia. apply H1; auto.
      * intros [|k] it0 Hi Hk; cbn in Hi.
        -- injection Hi as <-. cbn. rewrite app_nil_r. now apply Hb.
        -- cbn [firstn concat]. rewrite app_assoc. apply H2; auto; lia.
      * intros Hlt. destruct (H3 ltac:(lia)) as (k & it0 & -> & Hi & Ha). exists (S k), it0. repeat split; auto.
        cbn [firstn concat]. now rewrite app_assoc.
    + exists 1, [it], (c + m_stats p). cbn [firstn concat last]. rewrite app_nil_r. split; auto. cbn. repeat split; auto; try lia.
      * intros [|k] s0 it0 Hs Hi; cbn in Hs, Hi; [|now destruct k]. injection Hs as <-. injection Hi as <-. cbn. rewrite Nat.add_0_r. exact Hit.
      * intros _. exists 0, it. cbn. rewrite app_nil_r. repeat split; auto. intros H. apply Hb in H. discriminate.
Qed.

Lemma run_life : good_parts -> forall s0 sols, exists n log, mocp_run T ans p s0 sols = Ok (n, log) /\
  mo_life p ans (fun k i => (1 + k * m_stats p + i) mod m_interval p = 0) s0 sols n log.
Proof.
  intros Hg s0 sols. unfold mocp_run, mocp_init. cbn [app].
  set (start := each Init Stat _ _ ++ _).
  destruct (loop_spec Hg sols s0 1 start) as (n & its & c' & -> & Hn & Hl & H1 & H2 & H3). cbn [rbind snd].
  exists n. eexists. split; [reflexivity|]. split; auto. unfold mocp_last.
  exists start, its. eexists. rewrite <- app_assoc. split; [reflexivity|]. split; [|split; [|auto 6]].
  - unfold start, mo_start. apply order_cons; [apply each_parts|]. apply order_cons; [apply each_parts|]. apply order_cons; [apply each_parts|].
    rewrite <- (app_nil_r (each Init Cont _ _)). apply order_cons; [apply each_parts|constructor].
  - unfold mo_end. apply order_cons; [apply each_parts|]. apply order_cons; [apply each_parts|]. apply order_cons; [apply each_parts|].
    rewrite <- (app_nil_r (each Last Mon _ _)). apply order_cons; [apply each_parts|constructor].
Qed.

Lemma iteration_ext (d1 d2 : nat -> Prop) (s : T) it : (forall i, i < m_stats p -> (d1 i <-> d2 i)) -> mo_iteration p d1 s it -> mo_iteration p d2 s it.
Proof.
  intros H. unfold mo_iteration. intros Hi. inversion Hi as [|P ps l r Hd Hr]; subst. constructor; auto.
  destruct Hd as [A B]. split; auto. intros e. rewrite A. split; intros (i & Hi1 & Hi2 & ->); exists i; repeat split; auto; now apply H.
Qed.
Lemma life_ext d1 d2 s0 sols n log : (forall k i, i < m_stats p -> (d1 k i <-> d2 k i)) -> mo_life p ans d1 s0 sols n log -> mo_life p ans d2 s0 sols n log.
Proof.
  intros H (Hn & start & its & fin & A1 & A2 & A3 & A4 & A5 & A6). split; auto. exists start, its, fin. repeat split; auto; try apply A6.
  intros k s it Hs Hi. eapply iteration_ext; [|eapply A5; eauto]. auto.
Qed.
Lemma run_documented s0 sols : 0 < m_interval p -> m_stats p <= 1 \/ m_interval p = 1 ->
  exists n log, mocp_run T ans p s0 sols = Ok (n, log) /\ mo_life p ans (every (m_interval p)) s0 sols n log.
Proof.
  intros Hi Hc. destruct (run_life (or_intror Hi) s0 sols) as (n & log & E & HL). exists n, log. split; auto.
  eapply life_ext; [|exact HL]. intros k i Hs. unfold every. destruct Hc as [Hc|Hc].
  - replace (1 + k * m_stats p + i) with (S k).
    2: { assert (E1 : m_stats p = 1) by lia. assert (E2 : i = 0) by lia. rewrite E1, E2. lia. }
    rewrite Nat.mod_divide by lia. unfold Nat.divide. reflexivity.
  - rewrite Hc. rewrite Nat.mod_1_r. split; auto. intros _. exists (S k). lia.
Qed.

(** every event of a life *)
Lemma in_iteration d (s : T) it e : mo_iteration p d s it -> In e it ->
  e_act e = Call /\ (e_part e = Stat -> exists i, i < m_stats p /\ d i /\ e = Ev Call Stat i (Some s)).
Proof.
  assert (HA : forall a pt n o l (e : event T), all_parts a pt n o l -> In e l -> e_act e = a /\ e_part e = pt).
  { intros a pt n o l e0 [_ H] Hin. apply In_nth_error in Hin as [k Hk]. apply H in Hk as ->. auto. }
  intros H Hin. unfold mo_iteration in H.
  inversion H as [|P ps l0 r0 D0 H0]; subst. inversion H0 as [|P ps l1 r1 D1 H1]; subst. inversion H1 as [|P ps l2 r2 D2 H2]; subst.
  inversion H2 as [|P ps l3 r3 D3 H3]; subst. inversion H3 as [|P ps l4 r4 D4 H4]; subst. inversion H4; subst.
  rewrite !in_app_iff in Hin. destruct Hin as [Hin|[Hin|[Hin|[Hin|[Hin|[]]]]]].
  - apply D0 in Hin as (i & Hi & Hd & ->). cbn. split; auto. intros _. eauto.
  - apply (HA _ _ _ _ _ _ D1) in Hin as [-> ->]. split; auto. discriminate.
  - apply (HA _ _ _ _ _ _ D2) in Hin as [-> ->]. split; auto. discriminate.
  - apply (HA _ _ _ _ _ _ D3) in Hin as [-> ->]. split; auto. discriminate.
  - apply (HA _ _ _ _ _ _ D4) in Hin as [-> ->]. split; auto. discriminate.
Qed.
Lemma in_life d s0 sols n log i (o : option T) : mo_life p ans d s0 sols n log -> In (Ev Call Stat i o) log -> exists k, k < n /\ i < m_stats p /\ d k i.
Proof.
  assert (HA : forall a pt n o l (e : event T), all_parts a pt n o l -> In e l -> e_act e = a /\ e_part e = pt).
  { intros a pt m o0 l e0 [_ H] Hin. apply In_nth_error in Hin as [k Hk]. apply H in Hk as ->. auto. }
  intros (Hn & start & its & fin & -> & A2 & A3 & A4 & A5 & _) Hin. rewrite !in_app_iff in Hin. destruct Hin as [Hin|[Hin|Hin]].
  - unfold mo_start in A2. inversion A2 as [|P ps l1 r1 D1 H1]; subst. inversion H1 as [|P ps l2 r2 D2 H2]; subst.
    inversion H2 as [|P ps l3 r3 D3 H3]; subst. inversion H3 as [|P ps l4 r4 D4 H4]; subst. inversion H4; subst.
    rewrite !in_app_iff in Hin. destruct Hin as [Hin|[Hin|[Hin|[Hin|[]]]]].
    + apply (HA _ _ _ _ _ _ D1) in Hin as [H _]. discriminate.
    + apply (HA _ _ _ _ _ _ D2) in Hin as [H _]. discriminate.
    + apply (HA _ _ _ _ _ _ D3) in Hin as [_ H]. discriminate.
    + apply (HA _ _ _ _ _ _ D4) in Hin as [H _]. discriminate.
  - apply in_concat in Hin as (it & Hit & Hin). apply In_nth_error in Hit as [k Hk]. assert (Hkn : k < n) by (rewrite <- A4; eapply nth_error_lt; eauto).
    destruct (nth_error sols k) as [s|] eqn:Es; [|apply nth_error_None in Es; lia].
    apply (in_iteration _ _ _ _ (A5 _ _ _ Es Hk)) in Hin as [_ Hin]. destruct (Hin eq_refl) as (j & Hj & Hd & [= -> ->]). eauto.
  - unfold mo_end in A3. inversion A3 as [|P ps l1 r1 D1 H1]; subst. inversion H1 as [|P ps l2 r2 D2 H2]; subst.
    inversion H2 as [|P ps l3 r3 D3 H3]; subst. inversion H3 as [|P ps l4 r4 D4 H4]; subst. inversion H4; subst.
    rewrite !in_app_iff in Hin. destruct Hin as [Hin|[Hin|[Hin|[Hin|[]]]]].
    + apply (HA _ _ _ _ _ _ D1) in Hin as [H _]. discriminate.
    + apply (HA _ _ _ _ _ _ D2) in Hin as [H _]. discriminate.
    + apply (HA _ _ _ _ _ _ D3) in Hin as [H _]. discriminate.
    + apply (HA _ _ _ _ _ _ D4) in Hin as [H _]. discriminate.
Qed.
Lemma never_computed s0 sols n log : m_interval p = 2 -> m_stats p = 2 -> mocp_run T ans p s0 sols = Ok (n, log) -> forall o, ~ In (Ev Call Stat 0 o) log.
Proof.
  intros H2 Hs E o Hin. destruct (run_life (or_intror (ltac:(lia) : 0 < m_interval p)) s0 sols) as (n' & log' & E' & HL). rewrite E in E'. injection E' as <- <-.
  destruct (in_life _ _ _ _ _ _ _ HL Hin) as (k & _ & _ & Hd). cbv beta in Hd. rewrite H2, Hs in Hd. apply Nat.mod_divide in Hd; [|lia]. destruct Hd as [q Hq]. lia.
Qed.
Lemma documented_due s0 sols n log : mo_life p ans (every 2) s0 sols n log -> 2 <= n -> 1 <= m_stats p -> exists s, In (Ev Call Stat 0 (Some s)) log.
Proof.
  intros (Hn & start & its & fin & -> & A2 & A3 & A4 & A5 & _) H2 Hs.
  destruct (nth_error sols 1) as [s|] eqn:Es; [|apply nth_error_None in Es; lia].
  destruct (nth_error its 1) as [it|] eqn:Ei; [|apply nth_error_None in Ei; lia].
  specialize (A5 _ _ _ Es Ei). unfold mo_iteration in A5. inversion A5 as [|P ps l r D0 H0]; subst. exists s.
  rewrite !in_app_iff. right. left. apply in_concat. exists (l ++ r). split; [eapply nth_error_In; eauto|]. apply in_app_iff. left.
  apply D0. exists 0. split; [lia|]. split; auto. exists 1. auto.
Qed.
End Mo.

Section Eo.
Variables (I : Type) (sort : list I -> list I) (ans : nat -> list I -> list (event (list I)) -> bool) (p : eo_parts).
Lemma eo_call_spec pop log : exists b g fin, eocp_call I sort ans p pop log = (b, log ++ g ++ fin) /\ eo_generation sort p pop g /\
  (b = true <-> all_agree ans log g) /\ (b = true -> fin = []) /\ (b = false -> eo_end sort p pop fin).
Proof.
  unfold eocp_call. set (sp := if o_sorted p =? 0 then [] else sort pop).
  assert (Hsp : forall a, all_parts a SortedStat (o_sorted p) (Some (sort pop)) (each a SortedStat (o_sorted p) (Some sp))).
  { intros a. unfold sp. destruct (o_sorted p =? 0) eqn:E; [|apply each_parts]. apply Nat.eqb_eq in E. rewrite E. split; auto. intros [|i] e; discriminate. }
  set (pre := each Call SortedStat (o_sorted p) (Some sp) ++ each Call Stat (o_stats p) (Some pop) ++ each Call Upd (o_upds p) None ++ each Call Mon (o_mons p) None).
  destruct (ask_agree ans pop (o_conts p) log pre) as (b & E & Hb).
  { intros e He. unfold pre in He. rewrite !in_app_iff in He. destruct He as [He|[He|[He|He]]]; apply (each_no_cont _ _ _ _ _ He); discriminate. }
  rewrite E.
  assert (HG : eo_generation sort p pop (pre ++ each Call Cont (o_conts p) (Some pop))).
  { unfold pre, eo_generation. rewrite <- !app_assoc. apply order_cons; [apply Hsp|]. apply order_cons; [apply each_parts|]. apply order_cons; [apply each_parts|].
    apply order_cons; [apply each_parts|]. rewrite <- (app_nil_r (each Call Cont _ _)). apply order_cons; [apply each_parts|constructor]. }
  destruct b.
  - exists true, (pre ++ each Call Cont (o_conts p) (Some pop)), []. rewrite app_nil_r. repeat split; auto; try apply Hb. discriminate.
  - exists false, (pre ++ each Call Cont (o_conts p) (Some pop)). eexists. rewrite <- !app_assoc. split; [reflexivity|].
    split; auto. split; auto. split; [discriminate|]. intros _. unfold eo_end. apply order_cons; [apply Hsp|]. apply order_cons; [apply each_parts|]. apply order_cons; [apply each_parts|].
    rewrite <- (app_nil_r (each Last Mon _ _)). apply order_cons; [apply each_parts|constructor].
Qed.

Lemma eo_run_spec : forall pops log n stopped log', eocp_run I sort ans p pops log = (n, stopped, log') ->
  n <= length pops /\ (stopped = false -> n = length pops) /\
  exists gens fin, log' = log ++ concat gens ++ fin /\ length gens = n /\
    (forall k pop g, nth_error pops k = Some pop -> nth_error gens k = Some g -> eo_generation sort p pop g) /\
    (forall k g, nth_error gens k = Some g -> (all_agree ans (log ++ concat (firstn k gens)) g <-> stopped = false \/ S k < n)) /\
    (stopped = false -> fin = []) /\
    (stopped = true -> exists k pop, n = S k /\ nth_error pops k = Some pop /\ eo_end sort p pop fin).
Proof.
  induction pops as [|pop r IH]; intros log n stopped log'; cbn [eocp_run].
  - intros [= <- <- <-]. cbn. repeat split; auto. exists [], []. cbn. rewrite app_nil_r. repeat split; auto; try discriminate; now destruct k.
  - destruct (eo_call_spec pop log) as (b & g & fin & -> & Hg & Hb & Hf1 & Hf2). destruct b.
    + rewrite (Hf1 eq_refl), app_nil_r. destruct (eocp_run I sort ans p r (log ++ g)) as [[n1 st1] l1] eqn:E. intros [= <- <- <-].
      destruct (IH _ _ _ _ E) as (H1 & H2 & gens & fin' & H3 & H4 & H5 & H6 & H7 & H8). cbn [length]. split; [lia|]. split; [intros; rewrite H2; auto|].
      exists (g :: gens), fin'. cbn [concat length]. split; [now rewrite H3, <- !app_assoc|]. split; [lia|]. split; [|split; [|split; [auto|]]].
      * intros [|k] pop0 g0 Ha Hc; cbn in Ha, Hc; [congruence|eauto].
      * intros [|k] g0 Hc; cbn in Hc.
        -- injection Hc as <-. cbn. rewrite app_nil_r. rewrite <- Hb. split; auto. intros _. destruct st1; auto. right. destruct (H8 eq_refl) as (k & _ & -> & _). lia.
        -- cbn [firstn concat]. rewrite app_assoc. rewrite (H6 k g0 Hc). split; (intros [A|A]; [now left|right; lia]).
      * intros Hs. destruct (H8 Hs) as (k & pop0 & -> & Hk & He). exists (S k), pop0. auto.
    + intros [= <- <- <-]. cbn [length]. split; [lia|]. split; [discriminate|]. exists [g], fin. cbn [concat length]. rewrite app_nil_r. split; auto. split; auto.
      split; [|split; [|split; [discriminate|]]].
      * intros [|k] pop0 g0 Ha Hc; cbn in Ha, Hc; [congruence|now destruct k].
      * intros [|k] g0 Hc; cbn in Hc; [|now destruct k]. injection Hc as <-. cbn. rewrite app_nil_r, <- Hb. split; [discriminate|]. intros [|]; [discriminate|lia].
      * intros _. exists 0, pop. auto.
Qed.
End Eo.

Lemma multiples_filter d lo n : 0 < d -> multiples_in d lo (lo + n) (filter (fun c => c mod d =? 0) (seq lo n)).
Proof.
  intros Hd. split.
  - intros a b x y. apply filter_seq_sorted.
  - intros c. rewrite filter_In, in_seq, Nat.eqb_eq, Nat.mod_divide by lia. unfold Nat.divide. tauto.
Qed.
Lemma saver_spec d : 0 < d -> forall n c files, saver_calls d n (c, files) = Ok (c + n, files ++ filter (fun c => c mod d =? 0) (seq (S c) n)).
Proof.
  intros Hd. induction n as [|n IH]; intros c files; cbn [saver_calls].
  - cbn. now rewrite Nat.add_0_r, app_nil_r.
  - unfold saver_call. destruct (d =? 0) eqn:E; [apply Nat.eqb_eq in E; lia|]. cbn [rbind fst snd]. rewrite IH. cbn [seq filter].
    f_equal. f_equal; [lia|]. destruct (S c mod d =? 0); auto. now rewrite <- app_assoc.
Qed.
Lemma monsaver_spec d : 0 < d -> forall n c at_, monsaver_calls d n (c, at_) = Ok (c + n, at_ ++ filter (fun c => c mod d =? 0) (seq c n)).
Proof.
  intros Hd. induction n as [|n IH]; intros c files; cbn [monsaver_calls].
  - cbn. now rewrite Nat.add_0_r, app_nil_r.
  - unfold monsaver_call. destruct (d =? 0) eqn:E; [apply Nat.eqb_eq in E; lia|]. cbn [rbind fst snd]. rewrite IH. cbn [seq filter].
    f_equal. f_equal; [lia|]. destruct (c mod d =? 0); auto. now rewrite <- app_assoc.
Qed.

Lemma best_stat_spec {T F} (value : T -> F) (lt : F -> F -> bool) : strict_weak_order lt -> forall sols shown best f,
  first_best value lt shown best ->
  first_best value lt (shown ++ sols) (fst (fold_left (fun x s => best_stat_call T F value lt s x) sols (best, f))).
Proof.
  intros Hw. induction sols as [|s r IH]; intros shown best f Hb; cbn [fold_left].
  - now rewrite app_nil_r.
  - assert (E : exists b', best_stat_call T F value lt s (best, f) = (b', f) /\ first_best value lt (shown ++ [s]) b').
    { unfold best_stat_call. cbn [fst snd]. destruct Hb as (k & Hk & Hb). destruct (lt (value best) (value s)) eqn:El.
      - exists s. split; auto. exists (length shown). rewrite nth_error_app2, Nat.sub_diag by lia. split; auto.
        intros j t Hj. destruct (Nat.lt_ge_cases j (length shown)) as [H|H].
        + rewrite nth_error_app1 in Hj by lia. destruct (Hb j t Hj) as [H1 H2].
          assert (Hts : lt (value t) (value s) = true). { destruct (lt (value t) (value s)) eqn:Et; auto. pose proof (swo_ntrans _ Hw _ _ _ H1 Et). congruence. }
          split; auto. apply (swo_asym _ Hw). exact Hts.
        + assert (t = s). { rewrite nth_error_app2 in Hj by lia. destruct (j - length shown) as [|q]; cbn in Hj; [congruence|now destruct q]. } subst t.
          split; [apply (swo_irrefl _ Hw)|intros; lia].
      - exists best. split; auto. exists k. assert (Hkl := nth_error_lt _ _ _ Hk). rewrite nth_error_app1 by lia. split; auto.
        intros j t Hj. destruct (Nat.lt_ge_cases j (length shown)) as [H|H].
        + rewrite nth_error_app1 in Hj by lia. auto.
        + assert (t = s). { rewrite nth_error_app2 in Hj by lia. destruct (j - length shown) as [|q]; cbn in Hj; [congruence|now destruct q]. } subst t. split; auto. lia. }
    destruct E as (b' & -> & Hb'). specialize (IH (shown ++ [s]) b' f Hb'). rewrite <- app_assoc in IH. exact IH.
Qed.
