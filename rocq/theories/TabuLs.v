(** Tabu search with an indexed tabu list and the best-improvement aspiration. *)
From Coq Require Import List Arith Bool Lia.
From Verif Require Import Outcome Lib OrderSpec NeighModel LsModel LsSpec LsProofs LsClimb LsTabu TabuModel.
Import ListNotations.
Open Scope nat_scope.

(** moTS with a moIndexedVectorTabuList and a moBestImprAspiration (mo/src/memory/moBestImprAspiration.h:50-73:
    init, update and operator()), moDummyIntensification and moDummyDiversification. The state: the
    tabu list and bestFoundSoFar. *)
Definition indexed_memories {G F} (lt : F -> F -> bool) (k : tenure_kind) (maxSize : nat) : memories G F nat (list nat * sol G F) :=
  Memories G F nat (list nat * sol G F)
    (fun s m => (ti_clear (fst m), s))
    (fun s m ds => Ok (s, m, ds)) (fun s m ds => Ok (s, m, ds))
    (fun s p m ds => match p with Some q => let! (t, ds') := ti_add k maxSize (fst q) (fst m) ds in Ok ((t, snd m), ds') | None => UB end)
    (fun s p m => (ti_update (fst m), match fit (snd m), fit s with Some fb, Some f => if lt fb f then s else snd m | _, _ => snd m end))
    (fun s p m => ti_check (fst m) (fst p))
    (fun s p m => let! fb := fitness (snd m) in Ok (lt fb (snd p))).

Section IndexedTabu.
Variables (G F S C : Type) (lt : F -> F -> bool) (Sp : G -> Prop) (n : nat) (has : G -> bool) (nh : G -> iterator S nat).
Variables (Inv : S -> Prop) (Prog : G -> S -> Prop) (xfuel cost : nat).
Variables (full : G -> F) (neval : sol G F -> nat -> res F) (move : nat -> G -> res G) (c : continuator (sol G F) C).
Hypothesis LT : strict_weak_order lt.
Hypothesis NH : neighborhood_ok Sp (fun _ => seq 0 n) has nh Inv Prog xfuel cost.
Hypothesis MV : moves_ok Sp (fun _ => seq 0 n) full neval move.
Hypothesis INJ : forall g i j g', Sp g -> i < n -> j < n -> move i g = Ok g' -> move j g = Ok g' -> i = j.
Variable h : nat.
Notation sol := (sol G F).
Notation ms := (@indexed_memories G F lt (Fixed h) n).
Notation tabu := (tabu_search G F S nat lt has nh neval move xfuel _ ms).
Notation ts_ok := (ts_ok G F S nat _ Sp Inv full).
(** turn [k] of the walk applied move [i] *)
Definition applied (l : list sol) (k i : nat) : Prop :=
  i < n /\ exists a b, nth_error l k = Some a /\ nth_error l (Datatypes.S k) = Some b /\ move i (geno a) = Ok (geno b).
Hypothesis MOVES : forall g i, Sp g -> i < n -> move i g <> Ok g.

(** [past]: the solutions visited so far *)
Definition mem_ok (past : list sol) (m : list nat * sol) : Prop :=
  length (fst m) = n /\ (forall k i, applied past k i -> exists r, nth_error (fst m) i = Some r /\ h + k <= r + (length past - 1)) /\
  evaluated full (snd m) /\ forall v, In v past -> lt (full (geno (snd m))) (full (geno v)) = false.
Lemma applied_snoc past s k i : applied (past ++ [s]) k i -> Datatypes.S k < length past -> applied past k i.
Proof.
  intros (Hi & a & b & Ha & Hb & Hm) Hk. split; auto. exists a, b. rewrite nth_error_app1 in Ha, Hb by lia. auto.
Qed.
Lemma applied_lt past k i : applied past k i -> Datatypes.S k < length past.
Proof. intros (_ & a & b & _ & Hb & _). eapply nth_error_lt; eauto. Qed.
(** one turn *)
Lemma it_turn past s x ds b s' x' ds' : ts_ok s x -> mem_ok (past ++ [s]) (t_mem _ _ _ _ _ x) ->
  ls_turn _ _ tabu s x ds = Ok (b, s', x', ds') ->
  ts_ok s' x' /\ mem_ok (past ++ [s; s']) (t_mem _ _ _ _ _ x') /\
  (forall i k, applied (past ++ [s; s']) (length past) i -> applied (past ++ [s]) k i ->
     k + h <= length past \/ forall v, In v (past ++ [s]) -> lt (full (geno v)) (full (geno s')) = true).
Proof.
  intros HOK (HL & HT & HB & HBest) H.
  assert (KE : keeps_evaluated Sp full (m_intensify _ _ _ _ ms)) by (intros s0 m0 d0 s1 m1 d1 A1 A2 E; injection E as <- <- <-; auto).
  assert (KD : keeps_evaluated Sp full (m_diversify _ _ _ _ ms)) by (intros s0 m0 d0 s1 m1 d1 A1 A2 E; injection E as <- <- <-; auto).
  destruct (ts_turn G F S nat _ lt Sp _ has nh Inv Prog xfuel cost full neval move ms LT NH MV KE KD s x ds b s' x' ds' HOK H)
    as (s1 & m1 & ds1 & s2 & m2 & ds2 & E1 & E2 & HS & HE & HOK' & Hy & Hn).
  injection E1 as <- <- <-. injection E2 as <- <- <-. split; auto.
  assert (Asym : forall a b, lt a b = true -> lt b a = false).
  { destruct LT as (L1 & L2 & L3). intros a b0 Hl. destruct (lt b0 a) eqn:E; auto. rewrite <- (L2 a b0 a Hl E). apply L1. }
  assert (Last : forall k i, applied (past ++ [s; s']) k i -> applied (past ++ [s]) k i \/ (k = length past /\ i < n /\ move i (geno s) = Ok (geno s'))).
  { intros k i Ha. assert (Hk := applied_lt _ _ _ Ha). rewrite app_length in Hk. cbn in Hk. destruct (Nat.eq_dec k (length past)) as [->|Hkk].
    - right. destruct Ha as (Hi & a & b0 & Ha & Hb & Hm). rewrite nth_error_app2, Nat.sub_diag in Ha by lia. rewrite nth_error_app2 in Hb by lia.
      replace (Datatypes.S (length past) - length past) with 1 in Hb by lia. cbn in Ha, Hb. injection Ha as <-. injection Hb as <-. auto.
    - left. apply (applied_snoc _ s'); [|rewrite app_length; cbn; lia]. rewrite <- app_assoc. auto. }
  assert (HE' : evaluated full s') by apply HOK'. assert (HEv := HE'). unfold evaluated in HEv. assert (HBv := HB). unfold evaluated in HBv.
  destruct b.
  - destruct (Hy eq_refl) as (i & m3 & ds3 & ds4 & (Hi & Hm & Hadm & _) & Hadd & Hmem & _). apply in_seq in Hi. cbn in Hi.
    cbn [m_add indexed_memories fst] in Hadd. apply rbind_ok in Hadd as ([t ds5] & Hadd & Em). injection Em as <- <-. unfold ti_add in Hadd. destruct (Nat.ltb_spec i n); [|lia]. cbn [tenure rbind] in Hadd.
    apply rbind_ok in Hadd as (t1 & Hu & Et). injection Et as <- <-. apply of_opt_ok in Hu. rewrite upd_set in Hu by lia. injection Hu as <-.
    split.
    + rewrite Hmem. unfold mem_ok. cbn [m_update indexed_memories fst snd]. split; [unfold ti_update; rewrite map_length; cbn [fst]; rewrite set_length; auto|]. split; [|].
      * intros k j Ha. rewrite app_length. cbn [length]. unfold ti_update. rewrite nth_error_map. destruct (Last k j Ha) as [Ha'|(-> & Hj & Hmj)].
        -- assert (Hk := applied_lt _ _ _ Ha'). rewrite app_length in Hk. cbn in Hk. destruct (HT k j Ha') as (r & Hr & Hle). rewrite app_length in Hle. cbn in Hle. destruct (Nat.eq_dec i j) as [->|Hne].
           ++ rewrite nth_error_set_eq by lia. cbn. eexists. split; [reflexivity|]. lia.
           ++ rewrite nth_error_set_neq by auto. rewrite Hr. cbn. eexists. split; [reflexivity|]. lia.
        -- assert (i = j) as -> by (apply (INJ (geno s) i j (geno s')); auto; lia). rewrite nth_error_set_eq by lia. cbn. eexists. split; [reflexivity|]. lia.
      * rewrite HBv, HEv. split; [destruct (lt (full (geno (snd (t_mem G F S nat (list nat * sol) x)))) (full (geno s'))); auto|]. intros v Hv. destruct LT as (L1 & L2 & L3). rewrite in_app_iff in Hv. cbn in Hv.
        assert (Hold : In v (past ++ [s]) \/ v = s') by (rewrite in_app_iff; cbn; intuition). destruct (lt (full (geno (snd (t_mem G F S nat (list nat * sol) x)))) (full (geno s'))) eqn:El.
        -- destruct Hold as [Ho|Ho]; [|rewrite Ho; apply L1]. apply (L3 _ (full (geno (snd (t_mem G F S nat (list nat * sol) x))))); auto.
        -- destruct Hold as [Ho|Ho]; auto. rewrite Ho. auto.
    + intros j k Ha Hp. destruct (Last _ _ Ha) as [Ha'|(_ & Hj & Hmj)]; [apply applied_lt in Ha'; rewrite app_length in Ha'; cbn in Ha'; lia|].
      assert (i = j) as -> by (apply (INJ (geno s) i j (geno s')); auto; lia). destruct (HT k j Hp) as (r & Hr & Hle). rewrite app_length in Hle. cbn in Hle.
      unfold allowed in Hadm. cbn [m_tabu m_aspired indexed_memories fst snd] in Hadm. unfold ti_check in Hadm. rewrite Hr in Hadm. cbn [of_opt rbind] in Hadm. destruct Hadm as [Hadm|[_ Hasp]].
      * left. injection Hadm as Hadm. apply Nat.ltb_ge in Hadm. lia.
      * right. unfold fitness in Hasp. rewrite HBv in Hasp. cbn in Hasp. injection Hasp as Hasp. intros v Hv. destruct LT as (L1 & L2 & L3).
        destruct (lt (full (geno v)) (full (geno s'))) eqn:Ev; auto. rewrite (L3 (full (geno (snd (t_mem G F S nat (list nat * sol) x)))) (full (geno v)) (full (geno s'))) in Hasp; auto.
  - destruct (Hn eq_refl) as (-> & _ & _ & q & Hmem).
    assert (NoMv : forall k i, applied (past ++ [s; s]) k i -> applied (past ++ [s]) k i).
    { intros k i Ha. destruct (Last k i Ha) as [Ha'|(_ & Hi & Hm)]; auto. destruct (MOVES _ _ HS Hi Hm). }
    split.
    + rewrite Hmem. unfold mem_ok. cbn [m_update indexed_memories fst snd]. split; [unfold ti_update; rewrite map_length; auto|]. split; [|].
      * intros k j Ha. apply NoMv in Ha. rewrite app_length. cbn [length]. unfold ti_update. rewrite nth_error_map.
        destruct (HT k j Ha) as (r & Hr & Hle). rewrite app_length in Hle. cbn in Hle. apply applied_lt in Ha. rewrite app_length in Ha. cbn in Ha.
        rewrite Hr. cbn. eexists. split; [reflexivity|]. lia.
      * rewrite HBv, HEv. assert (El : lt (full (geno (snd (t_mem G F S nat (list nat * sol) x)))) (full (geno s)) = false) by (apply HBest; apply in_or_app; right; left; auto).
        rewrite El. split; auto. intros v Hv. apply HBest. rewrite in_app_iff in *. cbn in *. intuition.
    + intros i k Ha. apply NoMv, applied_lt in Ha. rewrite app_length in Ha. cbn in Ha. lia.
Qed.

Definition tenure_kept (l : list sol) (k' : nat) : Prop :=
  forall i k, applied l k' i -> applied l k i -> k < k' -> k + h <= k' \/ forall j v w, j <= k' -> nth_error l j = Some v -> nth_error l (Datatypes.S k') = Some w -> lt (full (geno v)) (full (geno w)) = true.
Lemma applied_prefix l l' k i : Datatypes.S k < length l -> applied (l ++ l') k i -> applied l k i.
Proof.
  intros Hk (Hi & a & b & Ha & Hb & Hm). split; auto. exists a, b. rewrite nth_error_app1 in Ha, Hb by lia. auto.
Qed.
Lemma it_loop fuel : forall past s x cs ds r, ts_ok s x -> mem_ok (past ++ [s]) (t_mem _ _ _ _ _ x) ->
  ls_loop _ _ _ tabu c fuel s x cs ds = Ok r -> forall k', length past <= k' -> tenure_kept (past ++ s :: r_visited r) k'.
Proof.
  induction fuel as [|f IH]; intros past s x cs ds r HOK HM H; [discriminate|]. cbn [ls_loop] in H.
  apply rbind_ok in H as ([[[b s'] x'] ds'] & Ht & H).
  destruct (it_turn _ _ _ _ _ _ _ _ HOK HM Ht) as (HOK' & HM' & HK).
  assert (Here : forall l, tenure_kept (past ++ s :: s' :: l) (length past)).
  { intros l i k A1 A2 Hk. replace (past ++ s :: s' :: l) with ((past ++ [s; s']) ++ l) in A1 by (rewrite <- app_assoc; auto).
    replace (past ++ s :: s' :: l) with ((past ++ [s]) ++ s' :: l) in A2 by (rewrite <- app_assoc; auto).
    apply applied_prefix in A1; [|rewrite app_length; cbn; lia]. apply applied_prefix in A2; [|rewrite app_length; cbn; lia].
    destruct (HK _ _ A1 A2) as [D|D]; [left; auto|right]. intros j v w Hj Hv Hw.
    replace (past ++ s :: s' :: l) with ((past ++ [s]) ++ s' :: l) in Hv, Hw by (rewrite <- app_assoc; auto).
    rewrite nth_error_app1 in Hv by (rewrite app_length; cbn; lia). rewrite nth_error_app2 in Hw by (rewrite app_length; cbn; lia).
    rewrite app_length in Hw. cbn [length] in Hw. replace (Datatypes.S (length past) - (length past + 1)) with 0 in Hw by lia. cbn in Hw. injection Hw as <-.
    apply D. eapply nth_error_In; eauto. }
  destruct (c_step c s' cs) as [go cs']. cbn [x_continue tabu_search] in H. destruct go; cbn [andb] in H.
  - apply rbind_ok in H as (r' & Hr & H). injection H as <-. cbn [r_visited].
    replace (past ++ [s; s']) with ((past ++ [s]) ++ [s']) in HM' by (rewrite <- app_assoc; auto).
    specialize (IH _ _ _ _ _ _ HOK' HM' Hr). intros k' Hk'. destruct (Nat.eq_dec k' (length past)) as [->|]; [apply Here|].
    specialize (IH k'). rewrite app_length in IH. cbn [length] in IH. rewrite <- app_assoc in IH. apply IH. lia.
  - injection H as <-. cbn [r_visited]. intros k' Hk'. destruct (Nat.eq_dec k' (length past)) as [->|]; [apply Here|].
    intros i k A1. apply applied_lt in A1. rewrite app_length in A1. cbn in A1. lia.
Qed.
Theorem it_run fuel s x cs ds r : Sp (geno s) -> not_stale full s -> Inv (t_nh _ _ _ _ _ x) -> length (fst (t_mem _ _ _ _ _ x)) = n ->
  local_search full tabu c fuel s x cs ds = Ok r -> forall k', tenure_kept (r_visited r) k'.
Proof.
  intros HS HN HI HL H k'. apply run_split in H as (x0 & ds0 & r0 & Hi & Hl & ->). cbn [x_init tabu_search] in Hi. injection Hi as <- <-.
  destruct (start_of_ok G F full s HN) as [HE HG]. cbn [r_visited].
  apply (it_loop fuel [] (started full s) _ _ _ _) with (k' := k') in Hl; cbn; auto with arith.
  - unfold LsTabu.ts_ok. cbn [t_nh t_best]. rewrite HG. auto.
  - split; [cbn; unfold ti_clear; rewrite map_length; auto|]. split; [|split; [auto|]].
    + intros k i Ha. apply applied_lt in Ha. cbn in Ha. lia.
    + intros v [<-|[]]. apply LT.
Qed.
End IndexedTabu.
