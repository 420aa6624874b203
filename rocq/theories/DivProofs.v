(** Proofs about the crowding distances (C107, C108). *)
From Coq Require Import List Bool QArith Arith Lia Lqa Permutation Sorted.
From Verif Require Import Lib Outcome OrderSpec OrderLemmas BoundsModel BoundsProofs EvalModel EvalSpec EvalNk DivSpec DivModel.
Import ListNotations.
Close Scope Q_scope.
Open Scope nat_scope.

Lemma qltb_swo {T} (v : T -> Q) : strict_weak_order (fun a b => qltb (v a) (v b)).
Proof.
  split; [|split].
  - intros a. destruct (qltb (v a) (v a)) eqn:E; auto. apply qltb_lt in E. lra.
  - intros a b c H1 H2. apply qltb_lt in H1. apply qltb_lt in H2. apply qltb_lt. lra.
  - intros a b c H1 H2. apply qltb_ge in H1. apply qltb_ge in H2. apply qltb_ge. lra.
Qed.
(** ** updating places one after the other *)
Lemma for_upd {T} (f : nat -> T -> T) (body : nat -> list T -> res (list T)) : forall c a (r : list T), a + c <= length r ->
  (forall k r x, a <= k < a + c -> nth_error r k = Some x -> body k r = of_opt (upd r k (f k x))) ->
  exists r', for_in (seq a c) body r = Ok r' /\ length r' = length r /\
    forall k, nth_error r' k = if (a <=? k) && (k <? a + c) then option_map (f k) (nth_error r k) else nth_error r k.
Proof.
  induction c as [|c IH]; intros a r Ha Hb; cbn [seq for_in].
  - exists r. split; auto. split; auto. intros k. destruct (Nat.leb_spec a k), (Nat.ltb_spec k (a + 0)); cbn; auto. lia.
  - destruct (nth_error r a) as [x|] eqn:Ex; [|apply nth_error_None in Ex; lia]. rewrite (Hb a r x) by (auto; lia). rewrite upd_set by lia. cbn [of_opt rbind].
    destruct (IH (S a) (set r a (f a x))) as (r' & E & L & H); [rewrite set_length; lia|intros; apply Hb; auto; lia|]. exists r'. split; auto. rewrite set_length in L. split; auto.
    intros k. rewrite H. destruct (Nat.eq_dec k a) as [->|Hne].
    + rewrite nth_error_set_eq by lia. rewrite Ex. destruct (Nat.leb_spec (S a) a), (Nat.leb_spec a a), (Nat.ltb_spec a (a + S c)); cbn; auto; lia.
    + rewrite nth_error_set_neq by auto. destruct (Nat.leb_spec (S a) k), (Nat.leb_spec a k), (Nat.ltb_spec k (S a + c)), (Nat.ltb_spec k (a + S c)); cbn; auto; lia.
Qed.
Lemma three_split {T} (l : list T) k p x s : nth_error l (k - 1) = Some p -> nth_error l k = Some x -> nth_error l (k + 1) = Some s -> 0 < k ->
  exists before after, l = before ++ p :: x :: s :: after.
Proof.
  intros Hp Hx Hs Hk. apply nth_error_split in Hp as (b & r & -> & Lb). rewrite nth_error_app2 in Hx by lia. rewrite nth_error_app2 in Hs by lia.
  replace (k - length b) with 1 in Hx by lia. replace (k + 1 - length b) with 2 in Hs by lia. destruct r as [|x' [|s' r]]; try discriminate. cbn in Hx, Hs. injection Hx as ->. injection Hs as ->. eauto.
Qed.
Lemma at_end_pos {T} (l : list T) x k : NoDup l -> nth_error l k = Some x -> at_end x l -> k = 0 \/ k = length l - 1.
Proof.
  intros Hn Hk [(r & E)|(r & E)].
  - left. eapply NoDup_nth_error; eauto; [apply nth_error_Some; congruence|]. rewrite Hk, E. auto.
  - right. eapply NoDup_nth_error; eauto; [apply nth_error_Some; congruence|]. rewrite Hk, E, app_length. cbn. rewrite nth_error_app2 by lia. replace (length r + 1 - 1 - length r) with 0 by lia. auto.
Qed.
Lemma ends {T} (l : list T) : l <> [] -> exists lo hi, (exists r, l = lo :: r) /\ (exists r, l = r ++ [hi]) /\ nth_error l 0 = Some lo /\ nth_error l (length l - 1) = Some hi.
Proof.
  intros H. destruct l as [|lo r]; [congruence|]. destruct (@exists_last _ (lo :: r) H) as (r' & hi & E). exists lo, hi. split; [eauto|]. split; [eauto|]. split; auto.
  rewrite E, app_length. cbn. rewrite nth_error_app2 by lia. replace (length r' + 1 - 1 - length r') with 0 by lia. auto.
Qed.
Lemma SS_le {T} (val : T -> Q) (l : list T) : StronglySorted (fun a b => (val a <= val b)%Q) l -> forall i j a b, i <= j -> nth_error l i = Some a -> nth_error l j = Some b -> (val a <= val b)%Q.
Proof.
  induction 1 as [|x l Hs IH Hf]; intros i j a b Hij Ha Hb; [destruct i; discriminate|]. destruct i as [|i], j as [|j]; cbn in Ha, Hb; try lia.
  - assert (a = b) as -> by congruence. lra.
  - injection Ha as ->. rewrite Forall_forall in Hf. apply Hf. eapply nth_error_In; eauto.
  - apply (IH i j); auto. lia.
Qed.

Section Crowd.
Variable X : Type.
Variable obj : nat -> X -> Q.
Variable sort : forall T : Type, (T -> T -> bool) -> list T -> list T.
Hypothesis sort_ok : std_sort_ok sort.
Variable share : list Q -> nat -> res diversity.
Variable members : list X.
Hypothesis Hnd : NoDup members.
Hypothesis Hlen : 2 < length members.
Notation n := (length members).
(** what the share of an objective is, on an arrangement *)
Definition share_ok (i : nat) : Prop := forall l lo hi k p s, arranged (obj i) members l -> nth_error l 0 = Some lo -> nth_error l (n - 1) = Some hi ->
  0 < k < n - 1 -> nth_error l (k - 1) = Some p -> nth_error l (k + 1) = Some s ->
  exists g, share (map (obj i) l) k = Ok (Finite g) /\ ((obj i lo < obj i hi)%Q -> (g == (obj i s - obj i p) / (obj i hi - obj i lo))%Q) /\ ((obj i lo == obj i hi)%Q -> (g == 0)%Q).
Definition inv (m : nat) (run : list (X * diversity)) : Prop :=
  Permutation members (map fst run) /\ exists arr, (forall i, i < m -> arranged (obj i) members (arr i)) /\
  forall x d, In (x, d) run -> ((exists i, i < m /\ at_end x (arr i)) /\ d = Infinite) \/
      ((forall i, i < m -> ~ at_end x (arr i)) /\
       exists gs q, length gs = m /\ (forall i g, nth_error gs i = Some g -> gap_share (obj i) (arr i) x g) /\ d = Finite q /\ (q == qsum gs (fun g => g))%Q).
Lemma pass_ok m run : share_ok m -> inv m run -> exists run', pass X obj sort share m run = Ok run' /\ inv (S m) run'.
Proof.
  intros Hsh [HP (arr & Harr & Hd)]. unfold pass.
  destruct (sort_ok _ (by_objective X obj m) run) as [P S]; [apply (qltb_swo (fun p => obj m (fst p)))|].
  remember (sort _ (by_objective X obj m) run) as st eqn:Hst0. clear Hst0. remember (map fst st) as l eqn:Dl.
  assert (Pl : Permutation members l) by (rewrite HP, Dl; apply Permutation_map; auto).
  assert (Ln : length st = n) by (rewrite Dl in Pl; apply Permutation_length in Pl; rewrite map_length in Pl; auto).
  assert (Ll : length l = n) by (rewrite Dl, map_length; auto).
  assert (Sl : StronglySorted (fun a b => (obj m a <= obj m b)%Q) l).
  { rewrite Dl. clear -S. induction S as [|a s Hs IH Hf]; cbn; constructor; auto. rewrite Forall_map. eapply Forall_impl; [|exact Hf]. intros b Hb. unfold by_objective in Hb. apply qltb_ge in Hb. auto. }
  assert (Hl : arranged (obj m) members l) by (split; auto).
  assert (NDl : NoDup l) by (eapply Permutation_NoDup; eauto).
  rewrite <- map_map with (f := fst) (g := obj m). rewrite <- Dl.
  destruct st as [|x0 r0] eqn:Est; [cbn in Ln; lia|]. cbn [rbind]. rewrite <- Est in *.
  set (r1 := (fst x0, Infinite) :: r0). assert (Lr1 : length r1 = n) by (unfold r1; rewrite Est in Ln; cbn in *; lia).
  destruct (nth_error r1 (length r1 - 1)) as [y|] eqn:Ey; [|apply nth_error_None in Ey; lia]. cbn [of_opt rbind]. rewrite upd_set by lia. cbn [of_opt rbind].
  set (r2 := set r1 (length r1 - 1) (fst y, Infinite)). assert (Lr2 : length r2 = n) by (unfold r2; rewrite set_length; auto).
  destruct (ends l) as (lo & hi & Elo & Ehi & N0 & Nn); [intros E; rewrite E in Ll; cbn in Ll; lia|]. rewrite Ll in Nn.
  assert (Hg : forall k, 0 < k < n - 1 -> exists g p x s, share (map (obj m) l) k = Ok (Finite g) /\ nth_error l (k - 1) = Some p /\ nth_error l k = Some x /\ nth_error l (k + 1) = Some s /\ gap_share (obj m) l x g).
  { intros k Hk. destruct (nth_error l (k - 1)) as [p|] eqn:Ep; [|apply nth_error_None in Ep; lia]. destruct (nth_error l k) as [x|] eqn:Ex; [|apply nth_error_None in Ex; lia].
    destruct (nth_error l (k + 1)) as [s|] eqn:Es; [|apply nth_error_None in Es; lia]. destruct (Hsh l lo hi k p s Hl N0 Nn Hk Ep Es) as (g & E & A & B).
    destruct (three_split l k p x s Ep Ex Es) as (b & a & Eab); [lia|]. exists g, p, x, s. repeat split; auto. exists b, p, s, a, lo, hi. auto. }
  set (dk := fun k => match share (map (obj m) l) k with Ok d => d | _ => NotANumber end).
  destruct (for_upd (fun k (x : X * diversity) => (fst x, plus (snd x) (dk k))) (fun k run => let! x := of_opt (nth_error run k) in let! d := share (map (obj m) l) k in of_opt (upd run k (fst x, plus (snd x) d))) (length r2 - 2) 1 r2)
    as (r3 & E3 & L3 & H3); [lia| |].
  { intros k r x Hk Ex. rewrite Ex. cbn [of_opt rbind]. destruct (Hg k) as (g & _ & _ & _ & Eg & _); [lia|]. unfold dk. rewrite Eg. cbn [rbind]. auto. }
  rewrite E3. exists r3. split; auto.
  (* position by position *)
  assert (Hpos : forall k x d', nth_error r3 k = Some (x, d') -> nth_error l k = Some x /\ exists d, In (x, d) run /\
     (((k = 0 \/ k = n - 1) /\ d' = Infinite) \/ (0 < k < n - 1 /\ d' = plus d (dk k)))).
  { intros k x d' Hk. assert (Hkn : k < n) by (rewrite <- Lr2, <- L3; apply nth_error_Some; congruence).
    destruct (nth_error st k) as [[x' d]|] eqn:Est'; [|apply nth_error_None in Est'; lia].
    assert (El : nth_error l k = Some x') by (rewrite Dl, nth_error_map', Est'; auto).
    assert (Hin : In (x', d) run) by (eapply Permutation_in; [symmetry; exact P|]; eapply nth_error_In; eauto).
    rewrite H3, Lr2 in Hk. unfold r2 in Hk. rewrite Lr1 in Hk.
    assert (Hr1 : 0 < k -> nth_error r1 k = Some (x', d)). { intros Hk0. destruct k; [lia|]. rewrite <- Est'. rewrite Est. auto. }
    destruct (Nat.eq_dec k (n - 1)) as [Ek|Hne].
    - replace ((1 <=? k) && (k <? 1 + (n - 2))) with false in Hk by (destruct (Nat.leb_spec 1 k), (Nat.ltb_spec k (1 + (n - 2))); cbn; auto; lia).
      rewrite Ek, nth_error_set_eq in Hk by lia. injection Hk as <- <-. rewrite Lr1, <- Ek in Ey. rewrite Hr1 in Ey by lia. injection Ey as <-. cbn [fst]. split; auto. exists d. split; auto.
    - rewrite nth_error_set_neq in Hk by auto. destruct (Nat.eq_dec k 0) as [->|Hk0].
      + cbn in Hk. injection Hk as <- <-. rewrite Est in Est'. cbn in Est'. injection Est' as ->. cbn [fst]. split; auto. exists d. split; auto.
      + replace ((1 <=? k) && (k <? 1 + (n - 2))) with true in Hk by (destruct (Nat.leb_spec 1 k), (Nat.ltb_spec k (1 + (n - 2))); cbn; auto; lia).
        rewrite Hr1 in Hk by lia. cbn in Hk. injection Hk as <- <-. split; auto. exists d. split; auto. right. split; [lia|auto]. }
  assert (Hids : map fst r3 = l).
  { apply nth_error_ext. intros k. rewrite nth_error_map'. destruct (nth_error r3 k) as [[x d']|] eqn:E; [apply Hpos in E as [-> _]; auto|]. symmetry. apply nth_error_None. apply nth_error_None in E. lia. }
  split; [rewrite Hids; auto|]. exists (fun i => if i =? m then l else arr i). split.
  - intros i Hi. destruct (Nat.eqb_spec i m) as [->|]; auto. apply Harr. lia.
  - intros x d' Hin. apply In_nth_error in Hin as (k & Hk). destruct (Hpos k x d' Hk) as (Elk & d & Hdin & [(Hend & ->)|(Hk' & ->)]).
    + left. split; auto. exists m. split; [lia|]. rewrite Nat.eqb_refl. destruct Hend as [->| ->].
      * left. destruct l; [discriminate|]. injection Elk as ->. eauto.
      * right. destruct Ehi as (r & Er). exists r. rewrite Er. rewrite Nn in Elk. congruence.
    + destruct (Hg k Hk') as (g & p & x' & s & Eg & _ & Ex' & _ & Hgs). assert (x' = x) as -> by congruence. unfold dk. rewrite Eg. destruct (Hd x d Hdin) as [((i & Hi & He) & ->)|(Hno & gs & q & Lg & Hgs' & -> & Hq)].
      * left. split; auto. exists i. split; [lia|]. destruct (Nat.eqb_spec i m); [lia|auto].
      * right. split.
        { intros i Hi. destruct (Nat.eqb_spec i m) as [->|]; [|apply Hno; lia]. intros He. destruct (at_end_pos l x k NDl Elk He); lia. }
        exists (gs ++ [g]). eexists. split; [rewrite app_length; cbn; lia|]. split; [|split; [reflexivity|]].
        { intros i g' Hi. destruct (Nat.lt_ge_cases i (length gs)) as [Hlt|Hge].
          - rewrite nth_error_app1 in Hi by auto. destruct (Nat.eqb_spec i m); [lia|auto].
          - rewrite nth_error_app2 in Hi by auto. destruct (i - length gs) as [|j] eqn:Ej; [|destruct j; discriminate]. injection Hi as <-. assert (i = m) as -> by lia. rewrite Nat.eqb_refl. auto. }
        rewrite qsum_app, Hq. unfold qsum at 3. cbn. lra.
Qed.
Lemma passes_ok nobj run : (forall i, i < nobj -> share_ok i) -> inv 0 run -> exists run', passes X obj sort share nobj run = Ok run' /\ inv nobj run'.
Proof.
  intros Hsh Hi. unfold passes.
  assert (G : forall c a run, a + c = nobj -> inv a run -> exists run', for_in (seq a c) (pass X obj sort share) run = Ok run' /\ inv nobj run').
  { induction c as [|c IH]; intros a r Ha Hr; cbn [seq for_in]; [exists r; split; auto; replace nobj with a by lia; auto|].
    destruct (pass_ok a r (Hsh a ltac:(lia)) Hr) as (r' & E & Hr'). rewrite E. cbn [rbind]. apply IH; auto. lia. }
  apply (G nobj 0 run); auto.
Qed.
Lemma inv_start run : Permutation members (map fst run) -> (forall x d, In (x, d) run -> d = Finite 0) -> inv 0 run.
Proof.
  intros P H. split; auto. exists (fun _ => []). split; [intros; lia|]. intros x d Hd. right. split; [intros; lia|]. exists [], 0%Q. split; auto. split; [intros [|i] g; discriminate|]. split; [apply (H x d Hd)|reflexivity].
Qed.
Lemma inv_crowding nobj run : inv nobj run -> crowding nobj obj members (fun x d => In (x, d) run).
Proof. intros [P (arr & A & B)]. split; [lia|]. intros _. exists arr. split; auto. Qed.
End Crowd.

Lemma share_front_ok X (obj : nat -> X -> Q) members i : 2 < length members -> share_ok X obj share_front members i.
Proof.
  intros Hl l lo hi k p s [P Sl] N0 Nn Hk Ep Es. assert (Ll : length l = length members) by (apply Permutation_length in P; auto).
  unfold share_front. rewrite map_length, Ll, !nth_error_map', N0, Nn, Ep, Es. cbn [option_map of_opt rbind].
  pose proof (SS_le (obj i) l Sl 0 (k - 1) lo p ltac:(lia) N0 Ep). pose proof (SS_le (obj i) l Sl (k - 1) (k + 1) p s ltac:(lia) Ep Es). pose proof (SS_le (obj i) l Sl (k + 1) (length members - 1) s hi ltac:(lia) Es Nn).
  destruct (Qeq_bool (obj i hi) (obj i lo)) eqn:E.
  - apply Qeq_bool_eq in E. unfold divide. assert (T : (obj i lo + tiny - (obj i hi - tiny) == 2 # 1000000)%Q) by (unfold tiny; lra).
    destruct (Qeq_bool (obj i lo + tiny - (obj i hi - tiny)) 0) eqn:F; [apply Qeq_bool_eq in F; rewrite T in F; discriminate|]. eexists. split; [reflexivity|]. split; [intros; lra|]. intros _.
    assert (obj i p - obj i s == 0)%Q as -> by lra. unfold Qdiv. lra.
  - assert (D : ~ (obj i hi == obj i lo)%Q) by (intros X0; apply Qeq_bool_iff in X0; congruence). unfold divide. destruct (Qeq_bool (obj i lo - obj i hi) 0) eqn:F; [apply Qeq_bool_eq in F; destruct D; lra|].
    eexists. split; [reflexivity|]. split; [intros; field; split; lra|intros; destruct D; lra].
Qed.
Lemma share_plain_ok X (obj : nat -> X -> Q) members i : 2 < length members -> (exists a b, In a members /\ In b members /\ ~ (obj i a == obj i b)%Q) -> share_ok X obj share_plain members i.
Proof.
  intros Hl (u & v & Hu & Hv & Huv) l lo hi k p s [P Sl] N0 Nn Hk Ep Es. assert (Ll : length l = length members) by (apply Permutation_length in P; auto).
  unfold share_plain. rewrite map_length, Ll, !nth_error_map', N0, Nn, Ep, Es. cbn [option_map of_opt rbind].
  assert (Hb : forall y, In y members -> (obj i lo <= obj i y <= obj i hi)%Q).
  { intros y Hy. apply (Permutation_in _ P) in Hy. apply In_nth_error in Hy as (j & Hj). assert (j < length l) by (apply nth_error_Some; congruence).
    split; [apply (SS_le (obj i) l Sl 0 j); auto; lia|apply (SS_le (obj i) l Sl j (length members - 1)); auto; lia]. }
  pose proof (Hb u Hu). pose proof (Hb v Hv). assert (Hlt : (obj i lo < obj i hi)%Q) by (destruct (Qlt_le_dec (obj i lo) (obj i hi)); auto; destruct Huv; lra).
  unfold divide. destruct (Qeq_bool (obj i hi - obj i lo) 0) eqn:F; [apply Qeq_bool_eq in F; lra|]. eexists. split; [reflexivity|]. split; [intros; reflexivity|intros; lra].
Qed.
Theorem crowding_distances_ok X (obj : nat -> X -> Q) sort : std_sort_ok sort -> forall nobj pop, NoDup pop ->
  (2 < length pop -> forall i, i < nobj -> exists a b, In a pop /\ In b pop /\ ~ (obj i a == obj i b)%Q) ->
  exists run, crowding_distances X obj sort nobj pop = Ok run /\ Permutation pop (map fst run) /\ crowding nobj obj pop (fun x d => In (x, d) run).
Proof.
  intros Hs nobj pop Hn Hc. unfold crowding_distances, few_or. destruct (Nat.leb_spec (length pop) 2) as [Hle|Hgt].
  - eexists. split; [reflexivity|]. split; [rewrite map_map, map_id; auto|]. split; [|lia]. intros _ x d _ Hd. apply in_map_iff in Hd as (y & E & _). congruence.
  - destruct (passes_ok X obj sort Hs share_plain pop Hn Hgt nobj (map (fun x => (x, Finite 0)) pop)) as (run & E & Hi).
    + intros i Hi. apply share_plain_ok; auto.
    + apply inv_start; auto; [rewrite map_map; cbn; rewrite map_id; auto|]. intros x d Hd. apply in_map_iff in Hd as (y & E & _). congruence.
    + exists run. split; auto. split; [apply Hi|]. apply inv_crowding; auto.
Qed.

(** ** fronts *)
Section Fronts.
Variable X : Type.
Variable obj : nat -> X -> Q.
Variable fit : X -> Q.
Variable sort : forall T : Type, (T -> T -> bool) -> list T -> list T.
Hypothesis sort_ok : std_sort_ok sort.
Definition front_of (q : Q) (l : list X) : list X := filter (fun x => Qeq_bool (fit x) q) l.
Lemma split_front_ok : forall r x front rest, split_front X fit x r = (front, rest) -> StronglySorted (fun a b => (fit a <= fit b)%Q) (map fst (x :: r)) ->
  x :: r = front ++ rest /\ (forall y, In y front -> (fit (fst y) == fit (fst x))%Q) /\ (forall y, In y rest -> (fit (fst x) < fit (fst y))%Q) /\ 0 < length front.
Proof.
  induction r as [|y r IH]; intros x front rest E Hs; cbn [split_front] in E.
  - injection E as <- <-. repeat split; auto; [intros y [<-|[]]; reflexivity|intros y []].
  - cbn [map] in Hs. apply StronglySorted_inv in Hs as [Hs Hf]. apply Forall_inv in Hf as Hxy. destruct (Qeq_bool (fit (fst x)) (fit (fst y))) eqn:Eq.
    + destruct (split_front X fit y r) as [f r'] eqn:Es. injection E as <- <-. apply Qeq_bool_eq in Eq. destruct (IH y f r' Es Hs) as (A & B & C & D). split; [cbn; congruence|]. split; [|split; [|cbn; lia]].
      * intros z [<-|Hz]; [reflexivity|]. rewrite (B z Hz). lra.
      * intros z Hz. specialize (C z Hz). lra.
    + injection E as <- <-. split; auto. assert (D : (fit (fst x) < fit (fst y))%Q). { assert (~ (fit (fst x) == fit (fst y))%Q) by (intros X0; apply Qeq_bool_iff in X0; congruence). destruct (Qlt_le_dec (fit (fst x)) (fit (fst y))); auto. destruct H. lra. }
      split; [intros z [<-|[]]; reflexivity|]. split; [|cbn; lia]. intros z [<-|Hz]; auto. apply StronglySorted_inv in Hs as [_ Hf2]. rewrite Forall_forall in Hf2. specialize (Hf2 (fst z) (in_map fst _ _ Hz)). lra.
Qed.
Lemma filter_permutes {T} (f : T -> bool) l l' : Permutation l l' -> Permutation (filter f l) (filter f l').
Proof.
  induction 1 as [|x l l' P IH|x y l|l l' l'' P1 IH1 P2 IH2]; cbn; auto.
  - destruct (f x); auto.
  - destruct (f x), (f y); auto. apply perm_swap.
  - etransitivity; eauto.
Qed.
Lemma filter_none {T} (f : T -> bool) : forall l, (forall x, In x l -> f x = false) -> filter f l = [].
Proof. induction l as [|x l IH]; intros H; cbn; auto. rewrite H by (left; auto). apply IH. intros; apply H; right; auto. Qed.
Lemma filter_id {T} (f : T -> bool) : forall l, (forall x, In x l -> f x = true) -> filter f l = l.
Proof. induction l as [|x l IH]; intros H; cbn; auto. rewrite H by (left; auto). f_equal. apply IH. intros; apply H; right; auto. Qed.
Lemma crowding_perm nobj (val : nat -> X -> Q) m m' div : Permutation m m' -> crowding nobj val m div -> crowding nobj val m' div.
Proof.
  intros P [A B]. pose proof (Permutation_length P) as L. split.
  - intros Hl x d Hx. apply A; [lia|]. eapply Permutation_in; [symmetry; eauto|auto].
  - intros Hl. destruct B as (arr & B & C); [lia|]. exists arr. split.
    + intros i Hi. destruct (B i Hi) as [B1 B2]. split; auto. rewrite <- P. auto.
    + intros x d Hx. apply C. eapply Permutation_in; [symmetry; eauto|auto].
Qed.
Lemma crowding_ext nobj (val : nat -> X -> Q) m (div div' : X -> diversity -> Prop) : (forall x d, In x m -> div' x d -> div x d) -> crowding nobj val m div -> crowding nobj val m div'.
Proof. intros H [A B]. split; [intros Hl x d Hx Hd; eauto|]. intros Hl. destruct (B Hl) as (arr & B1 & B2). exists arr. split; auto. Qed.
Lemma crowding_nil nobj (val : nat -> X -> Q) div : crowding nobj val [] div.
Proof. split; [intros _ x d []|cbn; lia]. Qed.
Lemma fronts_ok nobj : forall fuel ptrs, length ptrs <= fuel -> StronglySorted (fun a b => (fit a <= fit b)%Q) (map fst ptrs) -> NoDup (map fst ptrs) -> (forall x d, In (x, d) ptrs -> d = Finite 0) ->
  exists run, fronts X obj fit sort fuel nobj ptrs = Ok run /\ Permutation (map fst ptrs) (map fst run) /\ forall q, crowding nobj obj (front_of q (map fst ptrs)) (fun x d => In (x, d) run).
Proof.
  induction fuel as [|fuel IH]; intros ptrs Hf Hs Hn H0; destruct ptrs as [|x r]; try (cbn in Hf; lia); cbn [fronts]; try (exists []; split; auto; split; auto; intros q; apply crowding_nil).
  destruct (split_front X fit x r) as [front rest] eqn:Es. destruct (split_front_ok r x front rest Es Hs) as (Exr & Hfr & Hre & Lf).
  rewrite Exr in *. rewrite map_app in *. assert (Lr : length (front ++ rest) = length front + length rest) by apply app_length.
  assert (NDf : NoDup (map fst front)) by (clear -Hn; induction front as [|a f IHf]; cbn in *; constructor; apply NoDup_cons_iff in Hn as [A B]; auto; intros C; apply A; apply in_or_app; auto).
  assert (NDr : NoDup (map fst rest)) by (clear -Hn; induction front as [|a f IHf]; cbn in *; auto; apply NoDup_cons_iff in Hn as [A B]; auto).
  assert (SSr : StronglySorted (fun a b => (fit a <= fit b)%Q) (map fst rest)) by (clear -Hs; induction front as [|a f IHf]; cbn in *; auto; apply StronglySorted_inv in Hs as [A B]; auto).
  destruct (IH rest) as (run2 & E2 & P2 & C2); [lia|auto|auto|intros y d Hy; apply (H0 y d); apply in_or_app; auto|].
  assert (F1 : exists run1, (if length front - 1 <? 2 then Ok (map (fun p : X * diversity => (fst p, Infinite)) front) else passes X obj sort share_front nobj front) = Ok run1 /\ Permutation (map fst front) (map fst run1) /\ crowding nobj obj (map fst front) (fun x d => In (x, d) run1)).
  { destruct (Nat.ltb_spec (length front - 1) 2) as [Hlt|Hge].
    - eexists. split; [reflexivity|]. split; [rewrite map_map; cbn; auto|]. split; [|rewrite map_length; lia]. intros _ y d _ Hd. apply in_map_iff in Hd as (z & E & _). congruence.
    - assert (Lm : 2 < length (map fst front)) by (rewrite map_length; lia).
      destruct (passes_ok X obj sort sort_ok share_front (map fst front) NDf Lm nobj front) as (run1 & E1 & Hi1).
      + intros i Hi. apply share_front_ok; auto.
      + apply inv_start; auto. intros y d Hy. apply (H0 y d). apply in_or_app; auto.
      + exists run1. split; auto. split; [apply Hi1|apply inv_crowding; auto]. }
  destruct F1 as (run1 & E1 & P1 & C1). rewrite E1. cbn [rbind]. rewrite E2. cbn [rbind]. exists (run1 ++ run2). split; auto. split; [rewrite map_app; apply Permutation_app; auto|].
  assert (R1 : forall y d, In (y, d) run1 -> (fit y == fit (fst x))%Q). { intros y d Hy. apply (in_map fst) in Hy. apply (Permutation_in _ (Permutation_sym P1)) in Hy. cbn [fst] in Hy. apply in_map_iff in Hy as (z & <- & Hz). auto. }
  assert (R2 : forall y d, In (y, d) run2 -> (fit (fst x) < fit y)%Q). { intros y d Hy. apply (in_map fst) in Hy. apply (Permutation_in _ (Permutation_sym P2)) in Hy. cbn [fst] in Hy. apply in_map_iff in Hy as (z & <- & Hz). auto. }
  intros q. unfold front_of. rewrite filter_app. destruct (Qeq_bool (fit (fst x)) q) eqn:Eq.
  - apply Qeq_bool_eq in Eq. rewrite (filter_id _ (map fst front)), (filter_none _ (map fst rest)), app_nil_r.
    + eapply crowding_ext; [|exact C1]. intros y d Hy Hd. apply in_app_or in Hd as [Hd|Hd]; auto. apply R2 in Hd. apply in_map_iff in Hy as (z & <- & Hz). specialize (Hfr z Hz). lra.
    + intros y Hy. apply in_map_iff in Hy as (z & <- & Hz). specialize (Hre z Hz). destruct (Qeq_bool (fit (fst z)) q) eqn:Z; auto. apply Qeq_bool_eq in Z. lra.
    + intros y Hy. apply in_map_iff in Hy as (z & <- & Hz). specialize (Hfr z Hz). apply Qeq_bool_iff. lra.
  - assert (Dq : ~ (fit (fst x) == q)%Q) by (intros X0; apply Qeq_bool_iff in X0; congruence). rewrite (filter_none _ (map fst front)).
    + cbn [app]. eapply crowding_ext; [|apply C2]. intros y d Hy Hd. apply in_app_or in Hd as [Hd|Hd]; auto. apply R1 in Hd. apply filter_In in Hy as [_ Hy]. apply Qeq_bool_eq in Hy. destruct Dq. lra.
    + intros y Hy. apply in_map_iff in Hy as (z & <- & Hz). specialize (Hfr z Hz). destruct (Qeq_bool (fit (fst z)) q) eqn:Z; auto. apply Qeq_bool_eq in Z. destruct Dq. lra.
Qed.
Lemma by_fitness_swo : strict_weak_order (by_fitness X fit).
Proof.
  assert (E : forall a b, by_fitness X fit a b = qltb (fit a) (fit b)).
  { intros a b. unfold by_fitness. destruct (Qeq_bool (fit a) (fit b)) eqn:Q; auto. apply Qeq_bool_eq in Q. symmetry. change (qltb 0 0) with false. apply qltb_ge. lra. }
  destruct (qltb_swo fit) as (A & B & C). split; [|split]; intros; rewrite !E in *; eauto.
Qed.
Theorem front_by_front_ok nobj pop : NoDup pop ->
  exists run, front_by_front_crowding X obj fit sort nobj pop = Ok run /\ Permutation pop (map fst run) /\ forall q, crowding nobj obj (front_of q pop) (fun x d => In (x, d) run).
Proof.
  intros Hn. unfold front_by_front_crowding, few_or. destruct (Nat.leb_spec (length pop) 2) as [Hle|Hgt].
  - eexists. split; [reflexivity|]. split; [rewrite map_map, map_id; auto|]. intros q. assert (Hlen : length (front_of q pop) <= 2).
    { assert (G : forall l, length (front_of q l) <= length l) by (induction l as [|a l IHl]; cbn; auto; destruct (Qeq_bool (fit a) q); cbn; unfold front_of in *; lia). specialize (G pop). lia. }
    split; [|lia]. intros _ x d _ Hd. apply in_map_iff in Hd as (y & E & _). congruence.
  - destruct (sort_ok _ (by_fitness X fit) pop by_fitness_swo) as [P S]. set (st := sort X (by_fitness X fit) pop) in *.
    assert (Em : map fst (map (fun x : X => (x, Finite 0)) st) = st) by (rewrite map_map; cbn; apply map_id).
    destruct (fronts_ok nobj (length pop) (map (fun x => (x, Finite 0)) st)) as (run & E & Pr & C).
    + rewrite map_length. rewrite (Permutation_length P). auto.
    + rewrite Em. clear -S. induction S as [|a s Hs IH Hf]; constructor; auto. eapply Forall_impl; [|exact Hf]. intros b Hb. unfold by_fitness in Hb. destruct (Qeq_bool (fit b) (fit a)) eqn:Q; [apply Qeq_bool_eq in Q; lra|]. apply qltb_ge in Hb. auto.
    + rewrite Em. eapply Permutation_NoDup; eauto.
    + intros x d Hx. apply in_map_iff in Hx as (y & Ey & _). congruence.
    + exists run. split; auto. rewrite Em in *. split; [rewrite P; auto|]. intros q. eapply crowding_perm; [|apply C]. apply filter_permutes. symmetry. auto.
Qed.
End Fronts.
