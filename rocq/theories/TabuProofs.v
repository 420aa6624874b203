(** Proofs about the tabu lists. *)
From Coq Require Import List Arith Bool Lia.
From Verif Require Import Outcome Lib TabuModel TabuSpec.
Import ListNotations.
Open Scope nat_scope.

Lemma number_app {A} (p : A -> bool) a b : number p (a ++ b) = number p a + number p b.
Proof. unfold number. rewrite filter_app, app_length. auto. Qed.
Lemma number_one {A} (p : A -> bool) x : number p [x] = if p x then 1 else 0.
Proof. unfold number. cbn. destruct (p x); auto. Qed.

(** ** indexed lists *)
(** what is left of the tenure of [i] after a history *)
Definition left_step (i : nat) (r : nat) (e : call nat * nat) : nat :=
  match fst e with
  | CAdd j => if j =? i then snd e else r
  | CUpdate => pred r
  | CClear => 0
  end.
Definition left_over (i : nat) (hist : list (call nat * nat)) : nat := fold_left (left_step i) hist 0.
Lemma left_over_snoc i hist e : left_over i (hist ++ [e]) = left_step i (left_over i hist) e.
Proof. unfold left_over. rewrite fold_left_app. auto. Qed.
Lemma left_over_spec i : forall hist r, 0 < r -> (left_over i hist = r <->
  exists before after h, hist = before ++ (CAdd i, h) :: after /\ (forall c, In c (map fst after) -> c <> CAdd i /\ c <> CClear) /\ number is_update (map fst after) + r = h).
Proof.
  induction hist as [|[c h0] hist IH] using rev_ind; intros r Hr.
  - cbn. split; [lia|]. intros ([|? ?] & after & h & E & _); discriminate.
  - rewrite left_over_snoc. unfold left_step. cbn [fst snd].
    assert (Back : forall before after h, hist ++ [(c, h0)] = before ++ (CAdd i, h) :: after ->
       (after = [] /\ before = hist /\ c = CAdd i /\ h0 = h) \/ exists after', after = after' ++ [(c, h0)] /\ hist = before ++ (CAdd i, h) :: after').
    { intros before after h E. destruct (exists_last (l := (CAdd i, h) :: after)) as (l & e & El); [discriminate|]. rewrite El in E. rewrite app_assoc in E. apply app_inj_tail in E as [E1 E2]. subst e.
      destruct l as [|e l]; cbn in El.
      - injection El as <- <- ->. left. rewrite app_nil_r in E1. auto.
      - injection El as -> ->. right. exists l. split; auto. }
    destruct c as [j| |].
    + destruct (Nat.eqb_spec j i) as [->|Hj].
      * split.
        -- intros ->. exists hist, [], r. split; [auto|]. split; [intros c []|cbn; auto].
        -- intros (before & after & h & E & Hc & Hn). destruct (Back _ _ _ E) as [(-> & -> & _ & ->)|(a' & -> & _)]; [cbn in Hn; lia|].
           exfalso. destruct (Hc (CAdd i)) as [Hf _]; [rewrite map_app; apply in_or_app; right; left; auto|congruence].
      * rewrite (IH r Hr). split.
        -- intros (before & after & h & -> & Hc & Hn). exists before, (after ++ [(CAdd j, h0)]), h. rewrite <- app_assoc. split; auto. rewrite map_app. cbn [map fst]. split.
           ++ intros c Hin. apply in_app_or in Hin as [Hin|[<-|[]]]; auto. split; congruence.
           ++ rewrite number_app, number_one. cbn. lia.
        -- intros (before & after & h & E & Hc & Hn). destruct (Back _ _ _ E) as [(-> & -> & Ec & ->)|(a' & -> & ->)]; [congruence|].
           exists before, a', h. split; auto. rewrite map_app in Hc, Hn. cbn [map fst] in Hc, Hn. rewrite number_app, number_one in Hn. cbn in Hn. split; [|lia]. intros c Hin. apply Hc. apply in_or_app. auto.
    + assert (Hp : pred (left_over i hist) = r <-> left_over i hist = S r) by lia. rewrite Hp, (IH (S r)) by lia. split.
      * intros (before & after & h & -> & Hc & Hn). exists before, (after ++ [(CUpdate, h0)]), h. rewrite <- app_assoc. split; auto. rewrite map_app. cbn [map fst]. split.
        -- intros c Hin. apply in_app_or in Hin as [Hin|[<-|[]]]; auto. split; congruence.
        -- rewrite number_app, number_one. cbn. lia.
      * intros (before & after & h & E & Hc & Hn). destruct (Back _ _ _ E) as [(-> & -> & Ec & ->)|(a' & -> & ->)]; [congruence|].
        exists before, a', h. split; auto. rewrite map_app in Hc, Hn. cbn [map fst] in Hc, Hn. rewrite number_app, number_one in Hn. cbn in Hn. split; [|lia]. intros c Hin. apply Hc. apply in_or_app. auto.
    + split; [lia|]. intros (before & after & h & E & Hc & Hn). destruct (Back _ _ _ E) as [(-> & -> & Ec & ->)|(a' & -> & ->)]; [congruence|].
      exfalso. destruct (Hc CClear) as [_ Hf]; [rewrite map_app; apply in_or_app; right; left; auto|congruence].
Qed.
Lemma tabu_left_over i hist : tabu_move hist i <-> 0 < left_over i hist.
Proof.
  split.
  - intros (before & after & h & -> & Hc & Hn). assert (E : left_over i (before ++ (CAdd i, h) :: after) = h - number is_update (map fst after)).
    { apply left_over_spec; [lia|]. exists before, after, h. split; auto. split; auto. lia. }
    lia.
  - intros H. destruct (proj1 (left_over_spec i hist (left_over i hist) H) eq_refl) as (before & after & h & E & Hc & Hn). exists before, after, h. split; auto. split; auto. lia.
Qed.
Definition ti_inv (M : nat) (t : list nat) (hist : list (call nat * nat)) : Prop :=
  length t = M /\ forall i, i < M -> nth_error t i = Some (left_over i hist).
Lemma ti_new_inv M : ti_inv M (ti_new M) [].
Proof. split; [apply repeat_length|]. intros i Hi. cbn. apply nth_error_repeat. auto. Qed.
Lemma tenure_ok k ds h ds' : tenure k ds = Ok (h, ds') -> tenure_in k h.
Proof.
  destruct k as [n|mn mx|n r]; cbn [tenure tenure_in]; intros H.
  - injection H as -> _. auto.
  - destruct (Nat.ltb_spec mx mn); [discriminate|]. apply rbind_ok in H as ([d ds1] & Hd & H). injection H as <- _. destruct (Nat.eqb_spec (mx - mn) 0); [lia|].
    apply draw_lt in Hd; lia.
  - apply rbind_ok in H as ([d ds1] & Hd & H). injection H as <- _. destruct (Nat.eqb_spec r 0); [lia|]. apply draw_lt in Hd; lia.
Qed.
Lemma ti_call_inv k M c t ds t' ds' hist : ti_inv M t hist -> ti_call k M c t ds = Ok (t', ds') ->
  exists h, ti_inv M t' (hist ++ [(c, h)]) /\ (forall i, c = CAdd i -> i < M -> tenure_in k h).
Proof.
  intros [HL HI] H. destruct c as [i| |]; cbn in H.
  - unfold ti_add in H. destruct (Nat.ltb_spec i M) as [Hi|Hi].
    + apply rbind_ok in H as ([h ds1] & Ht & H). apply rbind_ok in H as (t1 & Hu & H). injection H as <- <-. apply of_opt_ok in Hu. exists h. split.
      * rewrite upd_set in Hu by lia. injection Hu as <-. split; [rewrite set_length; auto|]. intros j Hj. rewrite left_over_snoc. unfold left_step. cbn [fst snd].
        destruct (Nat.eqb_spec i j) as [->|Hn]; [apply nth_error_set_eq; lia|]. rewrite nth_error_set_neq by auto. auto.
      * intros j Ej Hj. eapply tenure_ok; eauto.
    + injection H as <- <-. exists 0. split.
      * split; auto. intros j Hj. rewrite left_over_snoc. unfold left_step. cbn [fst snd]. destruct (Nat.eqb_spec i j); [lia|auto].
      * intros j Ej Hj. injection Ej as ->. lia.
  - injection H as <- <-. exists 0. split; [|discriminate]. split; [unfold ti_update; rewrite map_length; auto|]. intros j Hj. rewrite left_over_snoc. unfold ti_update, left_step. cbn [fst].
    rewrite nth_error_map, (HI j Hj). auto.
  - injection H as <- <-. exists 0. split; [|discriminate]. split; [unfold ti_clear; rewrite map_length; auto|]. intros j Hj. rewrite left_over_snoc. unfold ti_clear, left_step. cbn [fst].
    rewrite nth_error_map, (HI j Hj). auto.
Qed.
Lemma ti_run_inv k M : forall cs t ds t' ds' hist, ti_inv M t hist -> ti_run k M cs t ds = Ok (t', ds') ->
  exists hs, length hs = length cs /\ ti_inv M t' (hist ++ combine cs hs) /\ (forall i h, In (CAdd i, h) (combine cs hs) -> i < M -> tenure_in k h).
Proof.
  induction cs as [|c cs IH]; intros t ds t' ds' hist HI H; cbn in H.
  - injection H as <- <-. exists []. split; auto. cbn. rewrite app_nil_r. split; auto. intros i h [].
  - apply rbind_ok in H as ([t1 ds1] & Hc & H). destruct (ti_call_inv _ _ _ _ _ _ _ _ HI Hc) as (h & HI1 & Hh). destruct (IH _ _ _ _ _ HI1 H) as (hs & L & HI2 & Hhs).
    exists (h :: hs). split; [cbn; auto|]. cbn. rewrite <- app_assoc in HI2. split; auto. intros i h' [E|Hin] Hi; [injection E as -> ->; eauto|eauto].
Qed.
Lemma ti_run_total k M : (match k with Robust mn mx => mn <= mx | _ => True end) -> forall cs t ds, length t = M -> number is_add cs <= length ds ->
  exists t' ds', ti_run k M cs t ds = Ok (t', ds').
Proof.
  intros Hk. induction cs as [|c cs IH]; intros t ds HL Hd; cbn; [eauto|].
  assert (Hc : exists t' ds', ti_call k M c t ds = Ok (t', ds') /\ length t' = M /\ length ds <= number is_add [c] + length ds').
  { destruct c as [i| |]; cbn.
    - unfold ti_add. destruct (Nat.ltb_spec i M); [|do 2 eexists; split; [reflexivity|cbn; lia]].
      assert (Ht : exists h ds', tenure k ds = Ok (h, ds') /\ length ds <= 1 + length ds').
      { unfold number in Hd. cbn in Hd. destruct ds as [|d ds]; [cbn in Hd; lia|]. destruct k as [n|mn mx|n r]; cbn [tenure]; [do 2 eexists; split; [reflexivity|cbn; lia]| |do 2 eexists; split; [reflexivity|cbn; lia]].
        destruct (Nat.ltb_spec mx mn); [lia|]. do 2 eexists; split; [reflexivity|cbn; lia]. }
      destruct Ht as (h & ds' & -> & Hl). cbn [rbind]. rewrite upd_set by lia. cbn. do 2 eexists. split; [reflexivity|]. split; [rewrite set_length; auto|auto].
    - do 2 eexists. split; [reflexivity|]. split; [unfold ti_update; rewrite map_length; auto|cbn; lia].
    - do 2 eexists. split; [reflexivity|]. split; [unfold ti_clear; rewrite map_length; auto|cbn; lia]. }
  destruct Hc as (t' & ds' & -> & HL' & Hd'). cbn [rbind]. apply IH; auto. change (c :: cs) with ([c] ++ cs) in Hd. rewrite number_app in Hd. lia.
Qed.
Theorem ti_tabu k M cs ds t ds' : ti_run k M cs (ti_new M) ds = Ok (t, ds') ->
  exists hs, length hs = length cs /\ (forall i h, In (CAdd i, h) (combine cs hs) -> i < M -> tenure_in k h) /\
    forall i, i < M -> exists b, ti_check t i = Ok b /\ (b = true <-> tabu_move (combine cs hs) i).
Proof.
  intros H. destruct (ti_run_inv _ _ _ _ _ _ _ [] (ti_new_inv M) H) as (hs & L & [HL HI] & Hh). exists hs. split; auto. split; auto.
  intros i Hi. unfold ti_check. rewrite (HI i Hi). cbn [of_opt rbind app]. eexists. split; [reflexivity|]. rewrite Nat.ltb_lt. symmetry. apply tabu_left_over.
Qed.
Theorem ti_unknown k M cs ds t ds' i : ti_run k M cs (ti_new M) ds = Ok (t, ds') -> M <= i -> ti_check t i = UB.
Proof.
  intros H Hi. destruct (ti_run_inv _ _ _ _ _ _ _ [] (ti_new_inv M) H) as (hs & L & [HL HI] & Hh). unfold ti_check. rewrite nth_error_ge by lia. auto.
Qed.

Lemma firstn_last {A} (l : list A) n : n < length l -> exists z, firstn (S n) l = firstn n l ++ [z].
Proof.
  revert n. induction l as [|a l IH]; intros n H; cbn in H; [lia|]. destruct n as [|n]; cbn; [exists a; destruct l; auto|]. destruct (IH n) as [z Hz]; [lia|]. exists z. cbn in Hz. rewrite Hz. auto.
Qed.

(** ** lists of entries *)
Section Ring.
Variables (E : Type) (equals : E -> E -> bool) (M howlong : nat).
Notation ring := (ring E).
(** the entries added since the last clear, the last first, with the number of updates since *)
Definition age_step (l : list (E * nat)) (c : call E) : list (E * nat) :=
  match c with
  | CAdd x => (x, 0) :: l
  | CUpdate => map (fun e => (fst e, S (snd e))) l
  | CClear => []
  end.
Definition ages (hist : list (call E)) : list (E * nat) := fold_left age_step hist [].
Lemma ages_snoc hist c : ages (hist ++ [c]) = age_step (ages hist) c.
Proof. unfold ages. rewrite fold_left_app. auto. Qed.
Lemma ages_spec : forall hist k y a, nth_error (ages hist) k = Some (y, a) <->
  exists before after, hist = before ++ CAdd y :: after /\ number is_clear after = 0 /\ number is_add after = k /\ number is_update after = a.
Proof.
  induction hist as [|c hist IH] using rev_ind; intros k y a.
  - cbn. split; [destruct k; discriminate|]. intros ([|? ?] & after & Eq & _); discriminate.
  - rewrite ages_snoc.
    assert (Back : forall before after, hist ++ [c] = before ++ CAdd y :: after ->
       (after = [] /\ before = hist /\ c = CAdd y) \/ exists after', after = after' ++ [c] /\ hist = before ++ CAdd y :: after').
    { intros before after Eq. destruct (exists_last (l := CAdd y :: after)) as (l & e & El); [discriminate|]. rewrite El in Eq. rewrite app_assoc in Eq. apply app_inj_tail in Eq as [E1 E2]. subst e.
      destruct l as [|e l]; cbn in El.
      - injection El as <- ->. left. rewrite app_nil_r in E1. auto.
      - injection El as <- ->. right. exists l. split; auto. }
    destruct c as [x| |]; cbn [age_step].
    + destruct k as [|k]; cbn [nth_error].
      * split.
        -- intros Eq. injection Eq as -> <-. exists hist, []. auto.
        -- intros (before & after & Eq & H1 & H2 & H3). destruct (Back _ _ Eq) as [(-> & -> & Ec)|(a' & -> & ->)]; [injection Ec as ->; rewrite <- H3; auto|].
           rewrite number_app, number_one in H2. cbn in H2. lia.
      * rewrite (IH k y a). split.
        -- intros (before & after & -> & H1 & H2 & H3). exists before, (after ++ [CAdd x]). rewrite <- app_assoc. rewrite !number_app, !number_one. cbn [is_clear is_add is_update]. repeat split; auto; lia.
        -- intros (before & after & Eq & H1 & H2 & H3). destruct (Back _ _ Eq) as [(-> & -> & Ec)|(a' & -> & ->)]; [discriminate|].
           rewrite !number_app, !number_one in *. cbn [is_clear is_add is_update] in *. exists before, a'. repeat split; auto; lia.
    + rewrite nth_error_map. split.
      * intros Eq. destruct (nth_error (ages hist) k) as [[z b]|] eqn:Ek; [|discriminate]. cbn in Eq. injection Eq as -> <-. apply IH in Ek as (before & after & -> & H1 & H2 & H3).
        exists before, (after ++ [CUpdate]). rewrite <- app_assoc. rewrite !number_app, !number_one. cbn [is_clear is_add is_update]. repeat split; auto; lia.
      * intros (before & after & Eq & H1 & H2 & H3). destruct (Back _ _ Eq) as [(-> & -> & Ec)|(a' & -> & ->)]; [discriminate|].
        rewrite !number_app, !number_one in *. cbn [is_clear is_add is_update] in *. assert (Ek : nth_error (ages (before ++ CAdd y :: a')) k = Some (y, number is_update a')) by (apply IH; exists before, a'; repeat split; auto; lia).
        rewrite Ek. cbn. do 2 f_equal. lia.
    + split; [destruct k; discriminate|]. intros (before & after & Eq & H1 & H2 & H3). destruct (Back _ _ Eq) as [(-> & -> & Ec)|(a' & -> & ->)]; [discriminate|].
      rewrite number_app, number_one in H1. cbn in H1. lia.
Qed.
(** the entry the list holds for one of them *)
Definition held (e : E * nat) : E * nat := (fst e, howlong - snd e).
(** the entries of the list from the oldest to the newest, the next to be replaced being at [r] *)
Definition rotated {A} (r : nat) (l : list A) : list A := skipn r l ++ firstn r l.
Definition ring_inv (t : ring) (hist : list (call E)) : Prop :=
  exists k, index E t = Some k /\
  (length (ages hist) < M -> k = 0 /\ entries E t = rev (map held (ages hist))) /\
  (M <= length (ages hist) -> length (entries E t) = M /\ rotated (k mod M) (entries E t) = rev (map held (firstn M (ages hist)))).
Hypothesis HM : 0 < M.
Lemma rotated_In {A} r (l : list A) x : In x (rotated r l) <-> In x l.
Proof. unfold rotated. rewrite in_app_iff. rewrite <- (firstn_skipn r l) at 3. rewrite in_app_iff. tauto. Qed.
Lemma ring_in t hist e : ring_inv t hist -> In e (entries E t) <-> In e (map held (firstn M (ages hist))).
Proof.
  intros (k & _ & H1 & H2). destruct (Nat.lt_ge_cases (length (ages hist)) M) as [H|H].
  - destruct (H1 H) as [_ ->]. rewrite <- in_rev, firstn_all2 by lia. tauto.
  - destruct (H2 H) as [_ E2]. rewrite <- (rotated_In (k mod M)), E2, <- in_rev. tauto.
Qed.
Lemma ring_inv_new t hist : index E t = Some 0 -> entries E t = [] -> ages hist = [] -> ring_inv t hist.
Proof. intros H1 H2 H3. exists 0. rewrite H1, H2, H3. split; auto. split; auto. cbn. lia. Qed.
Lemma replace_oldest {A} (l : list A) k e : length l = M -> exists y, rotated (k mod M) l = y :: tl (rotated (k mod M) l) /\
  exists l', upd l (k mod M) e = Some l' /\ length l' = M /\ rotated (S k mod M) l' = tl (rotated (k mod M) l) ++ [e].
Proof.
  intros HL. assert (Hr : k mod M < M) by (apply Nat.mod_upper_bound; lia). assert (Hs : S k mod M = if S (k mod M) =? M then 0 else S (k mod M)).
  { replace (S k) with (1 + k) by lia. rewrite <- Nat.add_mod_idemp_r by lia. destruct (Nat.eqb_spec (S (k mod M)) M) as [Hk|Hk]; [replace (1 + k mod M) with M by lia; apply Nat.mod_same; lia|apply Nat.mod_small; lia]. }
  set (r := k mod M) in *. destruct (nth_error_in_some l r) as [y Hy]; [lia|]. destruct (nth_error_split l r Hy) as (a & b & -> & La).
  assert (Er : rotated r (a ++ y :: b) = y :: b ++ a).
  { unfold rotated. rewrite <- La. rewrite skipn_app, skipn_all2, firstn_app, firstn_all2 by lia. rewrite Nat.sub_diag. cbn. rewrite app_nil_r. auto. }
  exists y. rewrite Er. split; auto. exists (a ++ e :: b). rewrite app_length in HL. cbn in HL. split; [|split; [rewrite app_length; cbn; lia|]].
  - rewrite upd_set by (rewrite app_length; cbn; lia). f_equal. rewrite <- La. clear. induction a as [|x a IH]; cbn; auto. f_equal. auto.
  - rewrite Hs. cbn [tl]. destruct (Nat.eqb_spec (S r) M) as [H|H].
    + assert (b = []) as -> by (destruct b; auto; cbn in HL; lia). unfold rotated. cbn. rewrite app_nil_r. auto.
    + unfold rotated. replace (a ++ e :: b) with ((a ++ [e]) ++ b) by (rewrite <- app_assoc; auto). assert (La2 : length (a ++ [e]) = S r) by (rewrite app_length; cbn; lia). rewrite <- La2.
      rewrite skipn_app, skipn_all, Nat.sub_diag, firstn_app, firstn_all, Nat.sub_diag. cbn. rewrite app_nil_r, app_assoc. auto.
Qed.
Lemma ring_call_inv c t hist : ring_inv t hist -> exists t', ring_call E M howlong c t = Ok t' /\ ring_inv t' (hist ++ [c]).
Proof.
  intros HI. assert (HI0 := HI). destruct HI as (k & Hk & H1 & H2). destruct c as [x| |]; cbn [ring_call].
  - unfold ring_add. assert (HLen : length (entries E t) = Nat.min M (length (ages hist))).
    { destruct (Nat.lt_ge_cases (length (ages hist)) M) as [H|H]; [destruct (H1 H) as [_ ->]; rewrite rev_length, map_length; lia|destruct (H2 H) as [-> _]; lia]. }
    destruct (Nat.ltb_spec (length (entries E t)) M) as [H|H].
    + assert (Ha : length (ages hist) < M) by lia. destruct (H1 Ha) as [-> He]. eexists. split; [reflexivity|]. exists 0. rewrite ages_snoc. cbn [age_step length index entries].
      assert (Ee : entries E t ++ [(x, howlong)] = rev (map held ((x, 0) :: ages hist))).
      { cbn [map rev]. rewrite He. unfold held at 3. cbn [fst snd]. rewrite Nat.sub_0_r. auto. }
      split; auto. split; [auto|]. intros Hf. split; [rewrite app_length; cbn; lia|]. rewrite Nat.mod_0_l by lia. unfold rotated. cbn [skipn firstn]. rewrite app_nil_r, Ee. rewrite firstn_all2 by (cbn; lia). auto.
    + assert (Ha : M <= length (ages hist)) by lia. destruct (H2 Ha) as [HL He]. rewrite Hk. destruct (Nat.eqb_spec M 0); [lia|].
      destruct (replace_oldest (entries E t) k (x, howlong) HL) as (y & Ey & l' & Eu & HL' & Er). rewrite Eu. cbn. eexists. split; [reflexivity|]. exists (S k). rewrite ages_snoc. cbn [age_step length index entries].
      split; auto. split; [lia|]. intros _. split; auto. rewrite Er, He. assert (Em : S (M - 1) = M) by lia. destruct (firstn_last (ages hist) (M - 1)) as [z Ez]; [lia|]. rewrite Em in Ez. rewrite Ez.
      assert (Ef : firstn M ((x, 0) :: ages hist) = (x, 0) :: firstn (M - 1) (ages hist)) by (rewrite <- Em at 1; reflexivity). rewrite Ef. rewrite map_app, rev_app_distr. cbn [map rev app tl].
      unfold held at 3. cbn [fst snd]. rewrite Nat.sub_0_r. auto.
  - eexists. split; [reflexivity|]. exists k. rewrite ages_snoc. cbn [age_step]. rewrite map_length.
    assert (Hu : index E (ring_update E howlong t) = Some k) by (unfold ring_update; destruct (0 <? howlong); auto). split; auto.
    assert (Hh : forall l, map held (map (fun e : E * nat => (fst e, S (snd e))) l) = map (fun e => (fst e, pred (snd e))) (map held l)).
    { intros l. rewrite !map_map. apply map_ext. intros [y a]. unfold held. cbn. f_equal. lia. }
    assert (Heu : entries E (ring_update E howlong t) = map (fun e => (fst e, pred (snd e))) (entries E t)).
    { unfold ring_update. destruct (Nat.ltb_spec 0 howlong) as [H|H]; auto. rewrite <- (map_id (entries E t)) at 1. apply map_ext_in. intros e He. apply (ring_in t hist e HI0) in He. apply in_map_iff in He as ([y a] & <- & _).
      unfold held. cbn. f_equal. lia. }
    rewrite Heu. split.
    + intros H. destruct (H1 H) as [Ek Ee]. split; auto. rewrite Ee, map_rev, Hh. auto.
    + intros H. destruct (H2 H) as [HL Ee]. rewrite map_length. split; auto. rewrite firstn_map, Hh, <- map_rev, <- Ee. unfold rotated. rewrite map_app, skipn_map, firstn_map. auto.
  - eexists. split; [reflexivity|]. apply ring_inv_new; auto. rewrite ages_snoc. auto.
Qed.
Lemma ring_run_inv : forall cs t hist, ring_inv t hist -> exists t', ring_run E M howlong cs t = Ok t' /\ ring_inv t' (hist ++ cs).
Proof.
  induction cs as [|c cs IH]; intros t hist HI; cbn.
  - exists t. rewrite app_nil_r. auto.
  - destruct (ring_call_inv c t hist HI) as (t1 & -> & HI1). cbn [rbind]. destruct (IH t1 _ HI1) as (t2 & E2 & HI2). rewrite <- app_assoc in HI2. eauto.
Qed.
Lemma ring_check_inv t hist x : ring_inv t hist -> (ring_check E equals howlong t x = true <-> tabu_entry equals M howlong hist x).
Proof.
  intros HI. unfold ring_check. rewrite existsb_exists. split.
  - intros (e & He & Hp). apply (ring_in t hist e HI) in He. apply in_map_iff in He as ([y a] & <- & He). apply In_nth_error in He as [n Hn].
    assert (Hnm : n < M) by (destruct (Nat.lt_ge_cases n M); auto; assert (Hl := nth_error_lt _ _ _ Hn); rewrite firstn_length in Hl; lia).
    rewrite firstn_nth_error in Hn by auto. apply ages_spec in Hn as (before & after & -> & Hc & Ha & Hu). exists before, after, y. unfold held in Hp. cbn [fst snd] in Hp.
    apply orb_prop in Hp. destruct Hp as [Hp|Hp]; apply andb_prop in Hp as [Hp Heq].
    + apply andb_prop in Hp as [Hp1 Hp2]. apply Nat.ltb_lt in Hp1, Hp2. repeat split; auto; try lia.
    + apply Nat.eqb_eq in Hp. repeat split; auto; lia.
  - intros (before & after & y & -> & Heq & Hc & Ha & Hu). set (hist := before ++ CAdd y :: after) in *.
    assert (Hn : nth_error (ages hist) (number is_add after) = Some (y, number is_update after)) by (apply ages_spec; exists before, after; auto).
    exists (held (y, number is_update after)). split.
    + apply (ring_in t hist _ HI). apply in_map. apply nth_error_In with (n := number is_add after). rewrite firstn_nth_error by auto. auto.
    + unfold held. cbn [fst snd]. rewrite Heq, !andb_true_r. apply orb_true_iff. destruct (Nat.eqb_spec howlong 0); auto. left. apply andb_true_iff. split; apply Nat.ltb_lt; lia.
Qed.
Theorem neighbor_list_tabu cs : exists t, ring_run E M howlong cs (neighbor_list_new E) = Ok t /\ forall x, ring_check E equals howlong t x = true <-> tabu_entry equals M howlong cs x.
Proof.
  destruct (ring_run_inv cs (neighbor_list_new E) []) as (t & Et & HI); [apply ring_inv_new; auto|]. exists t. split; auto. intros x. apply ring_check_inv. auto.
Qed.
Theorem sol_list_tabu cs : exists t, ring_run E M howlong (CClear :: cs) (sol_list_new E) = Ok t /\ forall x, ring_check E equals howlong t x = true <-> tabu_entry equals M howlong cs x.
Proof.
  destruct (ring_run_inv cs (ring_clear E (sol_list_new E)) []) as (t & Et & HI); [apply ring_inv_new; auto|]. exists t. split; auto. intros x. apply ring_check_inv. auto.
Qed.
End Ring.
