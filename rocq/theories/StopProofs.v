From Coq Require Import List Arith Bool Lia.
From Verif Require Import Lib Outcome LsModel StopModel StopSpec.
From Coq Require Import List.
Import ListNotations.
Open Scope nat_scope.

(** ** continuators *)
Lemma answers_length {T C} (c : continuator T C) sols x : length (answers c sols x) = length sols.
Proof. revert x. induction sols as [|s r IH]; intros x; cbn; auto. destruct (c_step c s x). cbn. now rewrite IH. Qed.

(** the answers of a stateful rule *)
Lemma answers_inv {T C} (c : continuator T C) (Inv : nat -> C -> Prop) (rule : nat -> bool -> Prop) (sols : list T) :
  forall n x, (forall k s y, nth_error sols k = Some s -> Inv (n + k) y -> rule (n + k) (fst (c_step c s y)) /\ Inv (S (n + k)) (snd (c_step c s y))) ->
  Inv n x -> forall k b, nth_error (answers c sols x) k = Some b -> rule (n + k) b.
Proof.
  induction sols as [|s r IH]; intros n x HS HI [|k] b H; cbn in H; try discriminate.
  - pose proof (HS 0 s x eq_refl) as HS0. rewrite Nat.add_0_r in HS0. destruct (HS0 HI) as [H1 _].
    destruct (c_step c s x). cbn in H. injection H as <-. rewrite Nat.add_0_r. exact H1.
  - pose proof (HS 0 s x eq_refl) as HS0. rewrite Nat.add_0_r in HS0. destruct (HS0 HI) as [_ H2].
    destruct (c_step c s x) as [b0 x']. cbn in H, H2. replace (n + S k) with (S n + k) by lia. apply (IH (S n) x'); auto.
    intros j t y Hj Hy. replace (S n + j) with (n + S j) by lia. apply HS; [exact Hj|]. now replace (n + S j) with (S n + j) by lia.
Qed.

Lemma iter_answers {T} m (s0 : T) sols x : answers_by (asked (iter_cont T m) s0 sols x) (length sols) (fun k b => b = (S k <? m)).
Proof.
  split; [apply answers_length|]. intros k b H.
  apply (answers_inv (iter_cont T m) (fun k c => c = k) (fun k b => b = (S k <? m)) sols 0 (c_init (iter_cont T m) s0 x)) with (k := k) in H; auto.
  intros j s y _ Hy. cbn in Hy |- *. now subst.
Qed.
Lemma fit_answers {T F} (value : T -> F) lt mf (s0 : T) sols x :
  answers_by (asked (fit_cont T F value lt mf) s0 sols x) (length sols) (fun k b => exists s, nth_error sols k = Some s /\ b = lt (value s) mf).
Proof.
  split; [apply answers_length|]. intros k b H.
  apply (answers_inv (fit_cont T F value lt mf) (fun _ _ => True) (fun k b => exists s, nth_error sols k = Some s /\ b = lt (value s) mf) sols 0 (c_init (fit_cont T F value lt mf) s0 x)) with (k := k) in H; auto.
  intros j s y Hj _. cbn. split; auto. eauto.
Qed.
Lemma no_improve_answers {T F} (value : T -> F) (lt eq : F -> F -> bool) m (s0 : T) sols best c0 :
  answers_by (asked (no_improve_cont T F value lt eq m) s0 sols (best, c0)) (length sols)
    (fun k b => b = true <-> S k < m \/ exists j s, j <= k < j + m /\ nth_error sols j = Some s /\
       lt (value s) (value best) = false /\ eq (value s) (value best) = false).
Proof.
  split; [apply answers_length|]. intros k b H.
  set (better := fun s => lt (value s) (value best) = false /\ eq (value s) (value best) = false).
  pose (Inv := fun (k : nat) (y : T * nat) => fst y = best /\ snd y <= k /\
     (forall j s, k <= j + snd y -> j < k -> nth_error sols j = Some s -> ~ better s) /\
     (snd y < k -> exists s, nth_error sols (k - S (snd y)) = Some s /\ better s)).
  eapply (answers_inv (no_improve_cont T F value lt eq m) Inv (fun k b => b = true <-> S k < m \/ exists j s, j <= k < j + m /\ nth_error sols j = Some s /\ lt (value s) (value best) = false /\ eq (value s) (value best) = false) sols 0 (c_init (no_improve_cont T F value lt eq m) s0 (best, c0))) with (k := k) in H; [exact H| |].
  - intros j s [bs cp] Hj (E & Hle & Hno & Hyes). cbn in E, Hle, Hno, Hyes |- *. subst bs.
    set (c := if lt (value s) (value best) || eq (value s) (value best) then S cp else 0).
    assert (HI : Inv (S j) (best, c)).
    { unfold Inv; cbn [fst snd]. subst c. destruct (lt (value s) (value best)) eqn:E1; [|destruct (eq (value s) (value best)) eqn:E2]; cbn [orb].
      - repeat split; [lia| |].
        + intros i t Hi1 Hi2 Hi3 [B1 B2]. destruct (Nat.eq_dec i j) as [->|]; [assert (t = s) by congruence; subst; congruence|].
          apply (Hno i t); try lia; auto. split; auto.
        + intros Hl. replace (S j - S (S cp)) with (j - S cp) by lia. apply Hyes. lia.
      - repeat split; [lia| |].
        + intros i t Hi1 Hi2 Hi3 [B1 B2]. destruct (Nat.eq_dec i j) as [->|]; [assert (t = s) by congruence; subst; congruence|].
          apply (Hno i t); try lia; auto. split; auto.
        + intros Hl. replace (S j - S (S cp)) with (j - S cp) by lia. apply Hyes. lia.
      - repeat split; [lia| |].
        + intros i t Hi1 Hi2. lia.
        + intros _. exists s. replace (S j - 1) with j by lia. repeat split; auto. }
    split; [|exact HI]. destruct HI as (_ & Hle' & Hno' & Hyes'). cbn [fst snd] in Hle', Hno', Hyes'.
    change (match m with 0 => false | S m' => c <=? m' end) with (c <? m). destruct (c <? m) eqn:Ec.
    + apply Nat.ltb_lt in Ec. split; [intros _|auto]. destruct (Nat.eq_dec c (S j)) as [E|]; [left; lia|].
      destruct (Hyes' ltac:(lia)) as (t & Ht & B1 & B2). right. exists (S j - S c), t. repeat split; auto; lia.
    + apply Nat.ltb_ge in Ec. split; [discriminate|]. intros [Hl|(i & t & Hi & Ht & B)]; [lia|].
      exfalso. apply (Hno' i t); auto; lia.
  - unfold Inv. cbn. repeat split; auto; try lia. 
Qed.

(** with the best solution kept by the statistic of the same checkpoint *)
Lemma tracked_answers {T F} (value : T -> F) (lt eq : F -> F -> bool) m (s0 : T) sols x :
  (forall a b, lt a b = false -> lt b a = false -> eq b a = true) -> (forall a, lt a a = false) ->
  answers_by (asked (tracked_no_improve T F value lt eq m) s0 sols x) (length sols) (fun k b => b = (S k <? m)).
Proof.
  intros Heq Hirr. split; [apply answers_length|]. intros k b H. destruct x as [xb c0].
  apply (answers_inv (tracked_no_improve T F value lt eq m) (fun k y => snd y = k) (fun k b => b = (S k <? m)) sols 0 (c_init (tracked_no_improve T F value lt eq m) s0 (xb, c0))) with (k := k) in H; auto.
  intros j s [[y f] c] _ Hy. cbn in Hy. subst c. cbn. unfold best_stat_call. cbn [fst snd].
  destruct (lt (value y) (value s)) eqn:E; cbn [fst snd].
  - now rewrite Hirr, (Heq _ _ (Hirr _) (Hirr _)).
  - destruct (lt (value s) (value y)) eqn:E2; [now cbn|]. now rewrite (Heq _ _ E E2).
Qed.

Lemma evals_answers {T W} (used : W -> nat) m restart (s0 : T * W) sols x :
  answers_by (asked (evals_cont T used m restart) s0 sols x) (length sols)
    (fun k b => exists s, nth_error sols k = Some s /\ (b = true <-> used (snd s) - (if restart then used (snd s0) else 0) < m)).
Proof.
  split; [apply answers_length|]. intros k b H.
  apply (answers_inv (evals_cont T used m restart) (fun _ y => y = if restart then used (snd s0) else 0)
    (fun k b => exists s, nth_error sols k = Some s /\ (b = true <-> used (snd s) - (if restart then used (snd s0) else 0) < m)) sols 0 (c_init (evals_cont T used m restart) s0 x)) with (k := k) in H; auto.
  intros j s y Hj ->. cbn. split; auto. exists s. split; auto. apply Nat.ltb_lt.
Qed.

Lemma fold_all {X} (rs : list (bool * X)) b : fold_left (fun b r => if negb (fst r) then false else b) rs b = b && forallb fst rs.
Proof.
  revert b. induction rs as [|[[] x] r IH]; intros b; cbn; [now rewrite andb_true_r|now rewrite IH|].
  rewrite IH. cbn. now rewrite andb_false_r.
Qed.
Lemma combined_answers {T C} (cs : list (continuator T C)) : forall (sols : list T) xs, length xs = length cs ->
  answers_by (answers (combined_cont T cs) sols xs) (length sols)
    (fun k b => b = true <-> forall i c x, nth_error cs i = Some c -> nth_error xs i = Some x -> nth_error (answers c sols x) k = Some true).
Proof.
  induction sols as [|s r IH]; intros xs Hl; (split; [apply answers_length|]); intros k b H; [now destruct k|].
  cbn [answers] in H. cbn [c_step combined_cont] in H. rewrite fold_all in H. cbn [andb] in H.
  assert (Hs : forall i c x, nth_error cs i = Some c -> nth_error xs i = Some x ->
     nth_error (map snd (map (fun p => c_step (fst p) s (snd p)) (combine cs xs))) i = Some (snd (c_step c s x))).
  { clear. revert xs. induction cs as [|c cs IHc]; intros [|x xs] [|i] c' x'; cbn; try discriminate.
    - intros [= ->] [= ->]. reflexivity. - apply IHc. }
  assert (Hs' : forall i y, nth_error (map snd (map (fun p => c_step (fst p) s (snd p)) (combine cs xs))) i = Some y ->
     exists c x, nth_error cs i = Some c /\ nth_error xs i = Some x /\ y = snd (c_step c s x)).
  { clear. revert xs. induction cs as [|c cs IHc]; intros [|x xs] [|i] y; cbn; try discriminate; eauto.
    intros [= <-]. eauto. }
  destruct k as [|k].
  - cbn in H. injection H as <-. rewrite forallb_forall. split.
    + intros Hf i c x Hc Hx. assert (Hin : In (c_step c s x) (map (fun p => c_step (fst p) s (snd p)) (combine cs xs))).
      { apply in_map_iff. exists (c, x). split; auto. clear - Hc Hx. revert xs i Hc Hx. induction cs as [|c0 cs IHc]; intros [|x0 xs] [|i]; cbn; try discriminate.
        - intros [= ->] [= ->]. now left. - intros Hc Hx. right. eapply IHc; eauto. }
      apply Hf in Hin. cbn. destruct (c_step c s x). cbn in *. now subst.
    + intros Hf q Hq. apply in_map_iff in Hq as ([c x] & <- & Hin). cbn. apply In_nth_error in Hin as [i Hi].
      assert (nth_error cs i = Some c /\ nth_error xs i = Some x) as [Hc Hx].
      { clear - Hi. revert xs i Hi. induction cs as [|c0 cs IHc]; intros [|x0 xs] [|i]; cbn; try discriminate; eauto. now intros [= -> ->]. }
      specialize (Hf _ _ _ Hc Hx). cbn in Hf. destruct (c_step c s x). cbn in *. congruence.
  - cbn [nth_error] in H. apply IH in H; [|rewrite !map_length, combine_length; lia].
    rewrite H. split.
    + intros Hf i c x Hc Hx. cbn. specialize (Hf i c _ Hc (Hs _ _ _ Hc Hx)). destruct (c_step c s x). exact Hf.
    + intros Hf i c y Hc Hy. apply Hs' in Hy as (c' & x & Hc' & Hx & ->). assert (c' = c) by congruence. subst.
      specialize (Hf i c x Hc Hx). cbn in Hf. destruct (c_step c s x). exact Hf.
Qed.

Lemma combined_asked {T C} (cs : list (continuator T C)) (s0 : T) sols xs : length xs = length cs ->
  answers_by (asked (combined_cont T cs) s0 sols xs) (length sols)
    (fun k b => b = true <-> forall i c x, nth_error cs i = Some c -> nth_error xs i = Some x -> nth_error (asked c s0 sols x) k = Some true).
Proof.
  intros Hl. unfold asked. cbn [c_init combined_cont].
  assert (Hl' : length (map (fun p => c_init (fst p) s0 (snd p)) (combine cs xs)) = length cs) by (rewrite map_length, combine_length; lia).
  destruct (combined_answers cs sols _ Hl') as [H1 H2]. split; [exact H1|]. intros k b H. rewrite (H2 k b H).
  assert (Hi : forall i c x, nth_error cs i = Some c -> nth_error xs i = Some x ->
     nth_error (map (fun p => c_init (fst p) s0 (snd p)) (combine cs xs)) i = Some (c_init c s0 x)).
  { clear. revert xs. induction cs as [|c cs IHc]; intros [|x xs] [|i] c' x'; cbn; try discriminate.
    - intros [= ->] [= ->]. reflexivity. - apply IHc. }
  assert (Hi' : forall i y, nth_error (map (fun p => c_init (fst p) s0 (snd p)) (combine cs xs)) i = Some y ->
     exists c x, nth_error cs i = Some c /\ nth_error xs i = Some x /\ y = c_init c s0 x).
  { clear. revert xs. induction cs as [|c cs IHc]; intros [|x xs] [|i] y; cbn; try discriminate; eauto. intros [= <-]. eauto. }
  split.
  - intros Hf i c x Hc Hx. eapply Hf; eauto.
  - intros Hf i c y Hc Hy. apply Hi' in Hy as (c' & x & Hc' & Hx & ->). assert (c' = c) by congruence. subst. eauto.
Qed.

(** ** a run of a local search and the answers of its continuator *)
Lemma run_answers {T X C} (e : explorer T X) (c : continuator T C) : forall fuel s x cs ds r,
  ls_loop T X C e c fuel s x cs ds = Ok r ->
  exists n, length (r_visited r) = S n /\ answers c (r_visited r) cs = repeat true n ++ [r_by_itself r].
Proof.
  induction fuel as [|f IH]; intros s x cs ds r H; [discriminate|]. cbn [ls_loop] in H.
  apply rbind_ok in H as ([[[b s'] x'] ds'] & Ht & H). destruct (c_step c s' cs) as [go cs'] eqn:Ec.
  destruct (go && x_continue e s' x') eqn:E.
  - apply rbind_ok in H as (r' & Hr & H). injection H as <-. cbn. apply IH in Hr as (n & Hn & Ha).
    exists (S n). cbn. rewrite Ec, Hn, Ha. apply andb_prop in E as [-> _]. auto.
  - injection H as <-. exists 0. cbn. rewrite Ec. auto.
Qed.
Lemma run_asked {T X C} (e : explorer T X) (c : continuator T C) fuel s x cs ds r :
  ls_run T X C e c fuel s x cs ds = Ok r ->
  exists n, length (r_visited r) = S (S n) /\ asked c s (tl (r_visited r)) cs = repeat true n ++ [r_by_itself r].
Proof.
  intros H. unfold ls_run in H. apply rbind_ok in H as ([x' ds'] & Hi & H). apply rbind_ok in H as (r' & Hr & H). injection H as <-. cbn.
  apply run_answers in Hr as (n & Hn & Ha). exists n. rewrite Hn. auto.
Qed.
Lemma run_iterations {T X} (e : explorer T X) m fuel s x cs ds r :
  ls_run T X nat e (iter_cont T m) fuel s x cs ds = Ok r ->
  length (tl (r_visited r)) <= Nat.max 1 m /\ (r_by_itself r = false -> length (tl (r_visited r)) = Nat.max 1 m).
Proof.
  intros H. apply run_asked in H as (n & Hn & Ha). destruct (iter_answers m s (tl (r_visited r)) cs) as [Hl Hr]. rewrite Ha in Hl, Hr.
  destruct (r_visited r) as [|v0 vs]; [discriminate|]. cbn [tl] in *. cbn [length] in Hn.
  assert (HL := Hr n (r_by_itself r)). rewrite nth_error_app2, repeat_length, Nat.sub_diag in HL by (rewrite repeat_length; lia). specialize (HL eq_refl).
  assert (HB : forall k, k < n -> S k < m).
  { intros k Hk. specialize (Hr k true). rewrite nth_error_app1 in Hr by (rewrite repeat_length; lia).
    rewrite (nth_error_nth' _ true) in Hr by (rewrite repeat_length; lia). rewrite nth_repeat in Hr. specialize (Hr eq_refl). symmetry in Hr. now apply Nat.ltb_lt in Hr. }
  destruct n as [|n'].
  - split; [lia|]. intros E. rewrite E in HL. symmetry in HL. apply Nat.ltb_ge in HL. lia.
  - specialize (HB n' ltac:(lia)). split; [lia|]. intros E. rewrite E in HL. symmetry in HL. apply Nat.ltb_ge in HL. lia.
Qed.
