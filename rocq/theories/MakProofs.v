From Coq Require Import Arith ZArith QArith String Ascii Decimal DecimalString DecimalNat Lia Lqa Bool.
From Verif Require Import Lib Outcome OrderSpec PopModel SelectModel BreedModel AlgoModel AlgoSpec AlgoProofs MakModel MakSpec.
From Coq Require Import List.
Import ListNotations.
Close Scope Q_scope.
Open Scope nat_scope.

Lemma digits_string d : digits (NilEmpty.string_of_uint d) = d.
Proof. induction d; cbn [NilEmpty.string_of_uint digits]; auto; cbn -[digits]; rewrite IHd; reflexivity. Qed.

Lemma atoi_dec n : atoi (dec n) = Z.of_nat n.
Proof.
  unfold dec. rewrite <- (Unsigned.of_to n) at 2. destruct (Nat.to_uint n) as [|d|d|d|d|d|d|d|d|d|d]; [reflexivity|..];
  cbn [NilEmpty.string_of_uint atoi];
  match goal with |- (if ?b then _ else _) = _ => change b with false end; cbn [Ascii.eqb Bool.eqb];
  repeat match goal with |- (if ?b then _ else _) = _ => change b with false end; cbv iota;
  match goal with |- Z.of_nat (Nat.of_uint (digits (String ?c (NilEmpty.string_of_uint ?d)))) = _ => 
    match c with
    | _ => rewrite <- (digits_string d) at 2; reflexivity
    end
  end.
Qed.

Lemma dle_num a x : dle a (Num x) = false -> a = Nan \/ a = PInf \/ exists q, a = Num q /\ (x < q)%Q.
Proof.
  destruct a as [q| | |]; cbn; intros H; try discriminate; eauto. right; right. exists q. split; auto.
  apply Qnot_le_lt. intros L. apply Qle_bool_iff in L. congruence.
Qed.
Lemma dlt_num a x : dlt (Num x) a = false -> a = Nan \/ a = NInf \/ exists q, a = Num q /\ (q <= x)%Q.
Proof.
  destruct a as [q| | |]; cbn; intros H; try discriminate; eauto. right; right. exists q. split; auto.
  apply Qle_bool_iff. destruct (Qle_bool q x); auto; discriminate.
Qed.
Lemma dlt_num_l a x : dlt a (Num x) = false -> a = Nan \/ a = PInf \/ exists q, a = Num q /\ (x <= q)%Q.
Proof.
  destruct a as [q| | |]; cbn; intros H; try discriminate; eauto. right; right. exists q. split; auto.
  apply Qle_bool_iff. destruct (Qle_bool x q); auto; discriminate.
Qed.

(** * Selection *)
Section Sel.
Context (atof : string -> dbl).

Lemma ranking_valid args s args' : ranking_of atof args = (s, args') -> valid_selector s.
Proof.
  unfold ranking_of. destruct (match args with [] => _ | _ => _ end) as [[p e] ar] eqn:E. clear E.
  intros H. destruct (dle p (Num 1) || dlt (Num 2) p) eqn:B.
  - destruct (dle e (Num 0)) eqn:D; injection H as <- <-; cbn [valid_selector]; split.
    + right. exists 2%Q. split; auto; lra.
    + right; right. exists 1%Q. split; auto; lra.
    + right. exists 2%Q. split; auto; lra.
    + apply dle_num in D. exact D.
  - apply orb_false_iff in B as [B1 B2].
    assert (P : p = Nan \/ exists q, p = Num q /\ (1 < q <= 2)%Q).
    { apply dle_num in B1. apply dlt_num in B2. destruct B1 as [->|[->|(q & -> & L)]]; auto.
      - destruct B2 as [?|[?|(q & ? & _)]]; discriminate.
      - destruct B2 as [?|[?|(q' & E & M)]]; try discriminate. injection E as <-. eauto. }
    destruct (dle e (Num 0)) eqn:D; injection H as <- <-; cbn [valid_selector]; split; auto.
    + right; right. exists 1%Q. split; auto; lra.
    + apply dle_num in D. exact D.
Qed.

Lemma stoch_valid p : valid_selector (stoch_tour p).
Proof.
  unfold stoch_tour. cbn [valid_selector].
  destruct (dlt p (Num (1#2))) eqn:A.
  - replace (dlt (Num 1) (Num (55 # 100))) with false by reflexivity. right. exists (55#100)%Q. split; auto; lra.
  - destruct (dlt (Num 1) p) eqn:B.
    + right. exists 1%Q. split; auto; lra.
    + apply dlt_num_l in A. apply dlt_num in B. destruct A as [->|[->|(q & -> & L)]]; auto.
      * destruct B as [?|[?|(q & ? & _)]]; discriminate.
      * destruct B as [?|[?|(q' & E & M)]]; try discriminate. injection E as <-. eauto.
Qed.

Lemma det_valid t : valid_selector (det_tour t).
Proof. unfold det_tour; cbn [valid_selector]. destruct (Z.ltb_spec t 2); lia. Qed.

Lemma select_valid dist pp s pp' : select_of atof dist pp = Ok (s, pp') -> valid_selector s /\ fst pp' = fst pp.
Proof.
  destruct pp as [name args]. unfold select_of.
  destruct (String.eqb name "DetTour"); [destruct args; intros H; injection H as <- <-; split; auto using det_valid|].
  destruct (String.eqb name "Sharing"); [destruct args, dist; intros H; try discriminate; injection H as <- <-; split; cbn; auto|].
  destruct (String.eqb name "StochTour"); [destruct args; intros H; injection H as <- <-; split; auto using stoch_valid|].
  destruct (String.eqb name "Ranking").
  { destruct (ranking_of atof args) as [s0 ar] eqn:E. intros H; injection H as <- <-. split; auto. eapply ranking_valid; eauto. }
  destruct (String.eqb name "Sequential"); [destruct args; intros H; injection H as <- <-; split; cbn; auto|].
  destruct (String.eqb name "Roulette"); [intros H; injection H as <- <-; split; cbn; auto|].
  destruct (String.eqb name "Random"); [intros H; injection H as <- <-; split; cbn; auto|]. discriminate.
Qed.

Lemma ranking_idem args s args' : reads_constants atof -> ranking_of atof args = (s, args') -> ranking_of atof args' = (s, args').
Proof.
  intros (A1 & A2 & _). unfold ranking_of.
  assert (D : forall p a, (p = atof a) -> forall e b, e = atof b ->
    (let '(p0, ar) := if dle p (Num 1) || dlt (Num 2) p then (Num 2, ["2"%string; b]) else (p, [a; b]) in
     let '(e0, ar) := if dle e (Num 0) then (Num 1, match ar with a :: _ :: r => a :: "1"%string :: r | l => l end) else (e, ar) in (Ranking p0 e0, ar)) = (s, args') ->
    exists a' b', args' = [a'; b'] /\ s = Ranking (atof a') (atof b') /\ (dle (atof a') (Num 1) || dlt (Num 2) (atof a')) = false /\ dle (atof b') (Num 0) = false).
  { intros p a -> e b ->. destruct (dle (atof a) (Num 1) || dlt (Num 2) (atof a)) eqn:P, (dle (atof b) (Num 0)) eqn:Q; intros H; injection H as <- <-.
    - exists "2"%string, "1"%string. rewrite A1, A2. repeat split; reflexivity.
    - exists "2"%string, b. rewrite A2. repeat split; auto.
    - exists a, "1"%string. rewrite A1. repeat split; auto.
    - exists a, b. repeat split; auto. }
  intros H.
  assert (X : exists a' b', args' = [a'; b'] /\ s = Ranking (atof a') (atof b') /\ (dle (atof a') (Num 1) || dlt (Num 2) (atof a')) = false /\ dle (atof b') (Num 0) = false).
  { destruct args as [|a [|b [|c r]]].
    - eapply (D (Num 2) "2"%string) with (e := Num 1) (b := "1"%string); auto.
    - eapply (D (atof a) a) with (e := Num 1) (b := "1"%string); auto.
    - eapply (D (atof a) a) with (e := atof b) (b := b); auto.
    - eapply (D (Num 2) "2"%string) with (e := Num 1) (b := "1"%string); auto. }
  destruct X as (a & b & -> & -> & P & Q). rewrite P, Q. reflexivity.
Qed.

Lemma select_idem dist pp s pp' : reads_constants atof -> select_of atof dist pp = Ok (s, pp') -> select_of atof dist pp' = Ok (s, pp').
Proof.
  intros K. pose proof K as (A1 & A2 & A5). destruct pp as [name args]. unfold select_of.
  destruct (String.eqb name "DetTour") eqn:N1; [destruct args; intros H; injection H as <- <-; rewrite N1; reflexivity|].
  destruct (String.eqb name "Sharing") eqn:N2; [destruct args, dist; intros H; try discriminate; injection H as <- <-; rewrite N1, N2, ?A5; reflexivity|].
  destruct (String.eqb name "StochTour") eqn:N3; [destruct args; intros H; injection H as <- <-; rewrite N1, N2, N3, ?A1; reflexivity|].
  destruct (String.eqb name "Ranking") eqn:N4.
  { destruct (ranking_of atof args) as [s0 ar] eqn:E. intros H; injection H as <- <-. rewrite N1, N2, N3, N4. rewrite (ranking_idem _ _ _ K E). reflexivity. }
  destruct (String.eqb name "Sequential") eqn:N5; [destruct args; intros H; injection H as <- <-; rewrite N1, N2, N3, N4, N5; reflexivity|].
  destruct (String.eqb name "Roulette") eqn:N6; [intros H; injection H as <- <-; rewrite N1, N2, N3, N4, N5, N6; reflexivity|].
  destruct (String.eqb name "Random") eqn:N7; [intros H; injection H as <- <-; rewrite N1, N2, N3, N4, N5, N6, N7; reflexivity|]. discriminate.
Qed.

Lemma select_throws dist pp :
  (exists r, select_of atof dist pp = Ok r) \/
  (select_of atof dist pp = Throw /\ (~ In (fst pp) selections \/ (fst pp = "Sharing"%string /\ dist = false))).
Proof.
  destruct pp as [name args]. unfold select_of, selections. cbn [fst].
  destruct (String.eqb_spec name "DetTour") as [->|N1]; [left; destruct args; eauto|].
  destruct (String.eqb_spec name "Sharing") as [->|N2]; [destruct args, dist; eauto|].
  destruct (String.eqb_spec name "StochTour") as [->|N3]; [left; destruct args; eauto|].
  destruct (String.eqb_spec name "Ranking") as [->|N4]; [left; destruct (ranking_of atof args); eauto|].
  destruct (String.eqb_spec name "Sequential") as [->|N5]; [left; destruct args; eauto|].
  destruct (String.eqb_spec name "Roulette") as [->|N6]; [left; eauto|].
  destruct (String.eqb_spec name "Random") as [->|N7]; [left; eauto|].
  right. split; auto. left. cbn. intuition congruence.
Qed.
End Sel.

(** * The population *)
Section Pop.
Context {G F R : Type}.
Context (reseed : nat -> R) (blank : indiv G F) (init : indiv G F -> R -> res (indiv G F * R)).

Lemma init_many_len n : forall g l g', init_many blank init n g = Ok (l, g') -> length l = n.
Proof.
  induction n as [|n IH]; intros g l g' H; cbn [init_many] in H; [injection H as <- <-; auto|].
  apply rbind_ok in H as ((x & g1) & E & H). apply rbind_ok in H as ((r & g2) & E2 & H). injection H as <- <-. cbn. f_equal. eauto.
Qed.
Lemma append_ok size pop g l g' : append_to blank init size pop g = Ok (l, g') ->
  length l = size /\ firstn (length pop) l = pop.
Proof.
  unfold append_to. destruct (Nat.ltb_spec size (length pop)); [discriminate|]. intros E.
  apply rbind_ok in E as ((r & g1) & E & K). injection K as <- <-. apply init_many_len in E. rewrite app_length, E. split; [lia|].
  rewrite firstn_app, firstn_all, Nat.sub_diag. cbn. apply app_nil_r.
Qed.
End Pop.

(** * The stopping criterion *)
Section Cont.
Variable F : Type.
Variable ltb : F -> F -> bool.
Variable nth_el : forall T : Type, (T -> T -> bool) -> nat -> list T -> list T.
Hypothesis Hs : strict_weak_order ltb.
Hypothesis Hn : std_nth_ok nth_el.
Notation criterion := (criterion F).
Notation cstate := (cstate F).

Lemma combined_app (a b : list criterion) p s :
  combined_continue (a ++ b) p s =
  (let! (v, s') := combined_continue a p s in if (v : bool) then combined_continue b p s' else Ok (false, s')).
Proof.
  revert s. induction a as [|c a IH]; intros s; cbn [app combined_continue]; [reflexivity|].
  destruct (c p s) as [[v s1]| | |]; cbn [rbind]; auto. destruct v; auto.
Qed.

Variable o : stop_options F.
Definition members : list criterion :=
  (if o_gen F o =? 0 then [] else [by_gen F (o_gen F o)])
  ++ (match o_steady F o with Some (mg, sg) => [by_steady F ltb nth_el mg sg] | None => [] end)
  ++ (if o_eval F o =? 0 then [] else [by_eval F (o_eval F o)])
  ++ (match o_target F o with Some f => [by_target F ltb f] | None => [] end)
  ++ (if o_ctrlc F o then [by_ctrlc F] else []).

Lemma make_members : make_continue F ltb nth_el o = Throw /\ ~ some_criterion o \/ make_continue F ltb nth_el o = Ok members /\ some_criterion o.
Proof.
  unfold make_continue. fold members. unfold members, some_criterion.
  destruct (Nat.eqb_spec (o_gen F o) 0) as [E1|E1]; [|right; cbn; auto].
  destruct (o_steady F o) as [[mg sg]|] eqn:E2; [right; cbn; split; auto; right; left; congruence|].
  destruct (Nat.eqb_spec (o_eval F o) 0) as [E3|E3]; [|right; cbn; auto].
  destruct (o_target F o) as [f|] eqn:E4; [right; cbn; split; auto; right; right; right; left; congruence|].
  destruct (o_ctrlc F o) eqn:E5; [right; cbn; auto 8|].
  left. split; auto. intuition congruence.
Qed.

(** one call: the generation is counted, the steady continuator advanced; no iff some criterion is met *)
Lemma one_call p g st b s' :
  combined_continue members p (g, st) = Ok (b, s') ->
  (b = false <->
    (o_gen F o <> 0 /\ o_gen F o <= S g) \/
    ((o_gen F o = 0 \/ S g < o_gen F o) /\ exists mg sg st', o_steady F o = Some (mg, sg) /\ steady_continue F ltb nth_el mg sg st (w_pop F p) = Ok (false, st')) \/
    (o_eval F o <> 0 /\ o_eval F o <= w_evals F p) \/
    (exists f, o_target F o = Some f /\ exists x, In x (w_pop F p) /\ ltb x f = false) \/
    (o_ctrlc F o = true /\ w_hit F p = true)) /\
  (b = true -> (o_gen F o <> 0 -> fst s' = S g) /\
     match o_steady F o with Some (mg, sg) => steady_continue F ltb nth_el mg sg st (w_pop F p) = Ok (true, snd s') | None => True end) /\
  (o_gen F o = 0 \/ S g < o_gen F o -> match o_steady F o with Some (mg, sg) => exists r, steady_continue F ltb nth_el mg sg st (w_pop F p) = Ok r | None => True end).
Proof.
  unfold members. rewrite combined_app. intros H.
  apply rbind_ok in H as ((v1 & s1) & H1 & H).
  assert (G1 : (v1 = false <-> o_gen F o <> 0 /\ o_gen F o <= S g) /\ snd s1 = st /\ (o_gen F o <> 0 -> fst s1 = S g)).
  { destruct (Nat.eqb_spec (o_gen F o) 0) as [E|E]; cbn [combined_continue] in H1.
    - injection H1 as <- <-. split; [split; [discriminate|tauto]|]. split; auto. intros; lia.
    - unfold by_gen, gen_continue in H1. cbn [fst snd rbind] in H1.
      destruct (Nat.leb_spec (o_gen F o) (S g)); cbn [negb] in H1; injection H1 as <- <-; cbn [fst snd]; (split; [split; intros; try discriminate; auto; lia|auto]). }
  clear H1. destruct G1 as (G1 & S1 & S1').
  destruct v1; [|injection H as <- <-; split; [split; [intros _; left; apply G1; auto|auto]|split; [discriminate|]; intros X; destruct G1 as [G1 _]; specialize (G1 eq_refl); lia]].
  assert (NG : ~ (o_gen F o <> 0 /\ o_gen F o <= S g)) by (intros X; apply G1 in X; discriminate).
  assert (NG' : o_gen F o = 0 \/ S g < o_gen F o) by lia.
  rewrite combined_app in H. apply rbind_ok in H as ((v2 & s2) & H2 & H).
  assert (G2 : (v2 = false <-> exists mg sg st', o_steady F o = Some (mg, sg) /\ steady_continue F ltb nth_el mg sg st (w_pop F p) = Ok (false, st')) /\
    fst s2 = fst s1 /\ (v2 = true -> match o_steady F o with Some (mg, sg) => steady_continue F ltb nth_el mg sg st (w_pop F p) = Ok (true, snd s2) | None => True end) /\
    match o_steady F o with Some (mg, sg) => exists r, steady_continue F ltb nth_el mg sg st (w_pop F p) = Ok r | None => True end).
  { destruct (o_steady F o) as [[mg sg]|]; cbn [combined_continue] in H2.
    - unfold by_steady in H2. rewrite S1 in H2. destruct (steady_continue F ltb nth_el mg sg st (w_pop F p)) as [[b2 st2]| | |] eqn:E; cbn [rbind] in H2; try discriminate.
      destruct b2; injection H2 as <- <-; cbn [fst snd].
      + split; [split; [discriminate|intros (? & ? & ? & K & L); injection K as <- <-; congruence]|]. split; auto. split; eauto.
      + split; [split; [eauto 6|auto]|]. split; auto. split; [discriminate|eauto].
    - injection H2 as <- <-. split; [split; [discriminate|intros (? & ? & ? & K & _); discriminate]|]. split; auto. }
  clear H2. destruct G2 as (G2 & S2 & S2' & S2r).
  destruct v2; [|injection H as <- <-; split; [split; [intros _; right; left; split; auto; apply G2; auto|auto]|split; [discriminate|auto]]].
  specialize (S2' eq_refl).
  assert (N2 : ~ exists mg sg st', o_steady F o = Some (mg, sg) /\ steady_continue F ltb nth_el mg sg st (w_pop F p) = Ok (false, st')) by (intros X; apply G2 in X; discriminate).
  rewrite combined_app in H. apply rbind_ok in H as ((v3 & s3) & H3 & H).
  assert (G3 : (v3 = false <-> o_eval F o <> 0 /\ o_eval F o <= w_evals F p) /\ s3 = s2).
  { destruct (Nat.eqb_spec (o_eval F o) 0) as [E|E]; cbn [combined_continue] in H3.
    - injection H3 as <- <-. split; auto. split; [discriminate|tauto].
    - unfold by_eval, eval_continue in H3. cbn [rbind] in H3.
      destruct (Nat.leb_spec (o_eval F o) (w_evals F p)); cbn [negb] in H3; injection H3 as <- <-; (split; [split; intros; try discriminate; auto; lia|auto]). }
  clear H3. destruct G3 as (G3 & ->).
  destruct v3; [|injection H as <- <-; split; [split; [intros _; right; right; left; apply G3; auto|auto]|split; [discriminate|auto]]].
  assert (N3 : ~ (o_eval F o <> 0 /\ o_eval F o <= w_evals F p)) by (intros X; apply G3 in X; discriminate).
  rewrite combined_app in H. apply rbind_ok in H as ((v4 & s4) & H4 & H).
  assert (G4 : (v4 = false <-> exists f, o_target F o = Some f /\ exists x, In x (w_pop F p) /\ ltb x f = false) /\ s4 = s2).
  { destruct (o_target F o) as [f|]; cbn [combined_continue] in H4.
    - unfold by_target in H4. destruct (fit_continue F ltb f (w_pop F p)) as [b4| | |] eqn:E; cbn [rbind] in H4; try discriminate.
      pose proof (fit_continue_spec F ltb Hs f (w_pop F p) b4 E) as K.
      destruct b4; injection H4 as <- <-; (split; [|auto]); split; intros; try discriminate.
      + destruct H0 as (f' & L & M). injection L as <-. apply K in M. discriminate.
      + exists f. split; auto. apply K; auto.
      + auto.
    - injection H4 as <- <-. split; auto. split; [discriminate|intros (? & K & _); discriminate]. }
  clear H4. destruct G4 as (G4 & ->).
  destruct v4; [|injection H as <- <-; split; [split; [intros _; right; right; right; left; apply G4; auto|auto]|split; [discriminate|auto]]].
  assert (N4 : ~ exists f, o_target F o = Some f /\ exists x, In x (w_pop F p) /\ ltb x f = false) by (intros X; apply G4 in X; discriminate).
  assert (G5 : (b = false <-> o_ctrlc F o = true /\ w_hit F p = true) /\ s' = s2).
  { destruct (o_ctrlc F o); cbn [combined_continue] in H.
    - unfold by_ctrlc in H. cbn [rbind] in H. destruct (w_hit F p); cbn [negb] in H; injection H as <- <-; (split; [split; intros; try discriminate; auto; intuition congruence|auto]).
    - injection H as <- <-. split; auto. split; [discriminate|intros [? _]; discriminate]. }
  destruct G5 as (G5 & ->). split.
  - split; [intros K; right; right; right; right; apply G5; auto|]. intros [K|[[_ K]|[K|[K|K]]]]; try contradiction. apply G5; auto.
  - split; [|auto]. intros _. split; [intros K; rewrite S2; auto|exact S2'].
Qed.

Lemma until_ok : forall ps g st bs, asked_until F members ps (g, st) = Ok bs ->
  (forall k, k < length bs -> exists p gk stk b, nth_error ps k = Some p /\ nth_error bs k = Some b /\ (S k < length bs -> b = true) /\
     (o_gen F o <> 0 -> gk = g + k) /\
     (o_gen F o = 0 \/ S gk < o_gen F o -> match o_steady F o with Some (mg, sg) => exists r, steady_continue F ltb nth_el mg sg stk (w_pop F p) = Ok r | None => True end) /\
     (match o_steady F o with Some (mg, sg) => steady_run F ltb nth_el mg sg st (map (w_pop F) (firstn k ps)) = Ok (repeat true k, stk) | None => True end) /\
     (b = false <->
      (o_gen F o <> 0 /\ o_gen F o <= S gk) \/
      ((o_gen F o = 0 \/ S gk < o_gen F o) /\ exists mg sg st', o_steady F o = Some (mg, sg) /\ steady_continue F ltb nth_el mg sg stk (w_pop F p) = Ok (false, st')) \/
      (o_eval F o <> 0 /\ o_eval F o <= w_evals F p) \/
      (exists f, o_target F o = Some f /\ exists x, In x (w_pop F p) /\ ltb x f = false) \/
      (o_ctrlc F o = true /\ w_hit F p = true))) /\
  (length bs = length ps \/ last bs true = false).
Proof.
  induction ps as [|p ps IH]; intros g st bs H; cbn [asked_until] in H.
  - injection H as <-. split; [cbn; intros; lia|auto].
  - apply rbind_ok in H as ((b & s1) & E & H). pose proof (one_call p g st b s1 E) as (K1 & K2 & K3).
    destruct b.
    + apply rbind_ok in H as (l & E2 & H). injection H as <-. destruct s1 as [g1 st1]. destruct (K2 eq_refl) as (L1 & L2). cbn [fst snd] in *.
      destruct (IH g1 st1 l E2) as (A & B). split.
      * intros [|k] Hk.
        -- exists p, g, st, true. cbn [nth_error firstn map steady_run repeat]. split; auto. split; auto. split; auto.
           split; [intros; lia|]. split; [exact K3|]. split; [destruct (o_steady F o) as [[? ?]|]; auto|]. exact K1.
        -- cbn [length] in Hk. destruct (A k ltac:(lia)) as (p' & gk & stk & b & C1 & C2 & C3 & C4 & C4' & C5 & C6). exists p', gk, stk, b. cbn [nth_error firstn map].
           split; auto. split; auto. split; [cbn [length]; intros; apply C3; lia|]. split; [intros N; rewrite C4, L1 by auto; lia|]. split; auto. split; auto.
           destruct (o_steady F o) as [[mg sg]|]; auto. cbn [steady_run]. rewrite L2. cbn [rbind]. rewrite C5. reflexivity.
      * destruct B as [B|B]; [left; cbn; lia|]. right. destruct l as [|x l]; [cbn in *; discriminate|]. exact B.
    + injection H as <-. split; [|auto]. intros k Hk. cbn [length] in Hk. assert (k = 0) by lia. subst k.
      exists p, g, st, false. cbn [nth_error firstn map steady_run repeat]. split; auto. split; auto. split; [cbn; lia|].
      split; [intros; lia|]. split; [exact K3|]. split; [destruct (o_steady F o) as [[? ?]|]; auto|]. exact K1.
Qed.
Lemma steady_run_app mg sg a : forall st b,
  steady_run F ltb nth_el mg sg st (a ++ b) =
  (let! (l, st1) := steady_run F ltb nth_el mg sg st a in let! (m, st2) := steady_run F ltb nth_el mg sg st1 b in Ok (l ++ m, st2)).
Proof.
  induction a as [|p a IH]; intros st b; cbn [app steady_run rbind].
  - destruct (steady_run F ltb nth_el mg sg st b) as [[? ?]| | |]; reflexivity.
  - destruct (steady_continue F ltb nth_el mg sg st p) as [[v st1]| | |]; cbn [rbind]; auto. rewrite IH.
    destruct (steady_run F ltb nth_el mg sg st1 a) as [[l st2]| | |]; cbn [rbind]; auto.
    destruct (steady_run F ltb nth_el mg sg st2 b) as [[m st3]| | |]; cbn [rbind]; auto.
Qed.

Lemma stop_answers_ok ps bs best : stop_answers F ltb nth_el o ps = Ok bs ->
  (forall j p, nth_error ps j = Some p -> is_best ltb (w_pop F p) (best (S j))) ->
  (forall k, k < length bs -> exists p b, nth_error ps k = Some p /\ nth_error bs k = Some b /\ (S k < length bs -> b = true) /\
     (b = false <-> should_stop ltb o best (S k) p)) /\
  (length bs = length ps \/ last bs true = false).
Proof.
  unfold stop_answers. intros H B. destruct make_members as [[E _]|[E _]]; rewrite E in H; cbn [rbind] in H; [discriminate|].
  destruct (until_ok ps 0 (steady_new F) bs H) as (A & L). split; auto.
  intros k Hk. destruct (A k Hk) as (p & gk & stk & b & C1 & C2 & C3 & C4 & C4' & C5 & C6). exists p, b. repeat (split; auto).
  - intros Hb. apply C6 in Hb. unfold should_stop. destruct Hb as [[X Y]|[[X Y]|[X|[X|X]]]]; auto 6.
    + left. split; auto. rewrite (C4 X) in Y. exact Y.
    + right; left. destruct Y as (mg & sg & st' & Y1 & Y2). exists mg, sg. split; auto. rewrite Y1 in C5.
      assert (R : steady_run F ltb nth_el mg sg (steady_new F) (map (w_pop F) (firstn k ps) ++ [w_pop F p]) = Ok (repeat true k ++ [false], st')).
      { rewrite steady_run_app, C5. cbn [rbind steady_run]. rewrite Y2. reflexivity. }
      assert (Len : length (firstn k ps) = k). { apply firstn_length_le. apply nth_error_lt in C1. lia. }
      apply (steady_run_spec F ltb nth_el Hs Hn mg sg _ _ _ best) in R as (_ & R).
      * apply (R k false); auto. rewrite nth_error_app2; rewrite repeat_length; auto. rewrite Nat.sub_diag. reflexivity.
      * intros j q Q. assert (J : j < k \/ j = k). { apply nth_error_lt in Q. rewrite app_length, map_length, Len in Q. cbn in Q. lia. }
        destruct J as [J| ->].
        -- rewrite nth_error_app1 in Q by (rewrite map_length, Len; auto). rewrite nth_error_map in Q. destruct (nth_error (firstn k ps) j) as [q0|] eqn:Q0; [|discriminate].
           injection Q as <-. apply B. rewrite <- Q0. rewrite <- (firstn_skipn k ps) at 1. rewrite nth_error_app1; auto. rewrite Len; auto.
        -- rewrite nth_error_app2 in Q by (rewrite map_length, Len; auto). rewrite map_length, Len, Nat.sub_diag in Q. injection Q as <-. auto.
  - intros S. apply C6. destruct S as [[X Y]|[X|[X|[X|X]]]]; auto 6.
    + left. rewrite (C4 X). auto.
    + destruct X as (mg & sg & Y1 & Y2). rewrite Y1 in C5, C4'.
      destruct (Nat.eq_dec (o_gen F o) 0) as [Z|Z]; [|destruct (le_lt_dec (o_gen F o) (Datatypes.S gk)) as [W|W]; [left; auto|]].
      1: assert (NG : o_gen F o = 0 \/ Datatypes.S gk < o_gen F o) by auto.
      2: assert (NG : o_gen F o = 0 \/ Datatypes.S gk < o_gen F o) by auto.
      all: right; left; split; auto; destruct (C4' NG) as ([v st'] & Y3); exists mg, sg, st'; split; auto.
      all: assert (R : steady_run F ltb nth_el mg sg (steady_new F) (map (w_pop F) (firstn k ps) ++ [w_pop F p]) = Ok (repeat true k ++ [v], st')) by
        (rewrite steady_run_app, C5; cbn [rbind steady_run]; rewrite Y3; reflexivity).
      all: assert (Len : length (firstn k ps) = k) by (apply firstn_length_le; apply nth_error_lt in C1; lia).
      all: apply (steady_run_spec F ltb nth_el Hs Hn mg sg _ _ _ best) in R as (_ & R);
        [assert (V : v = false) by (apply (R k v); auto; rewrite nth_error_app2; rewrite repeat_length; auto; rewrite Nat.sub_diag; reflexivity); rewrite V in Y3; exact Y3|].
      all: intros j q Q; assert (J : j < k \/ j = k) by (apply nth_error_lt in Q; rewrite app_length, map_length, Len in Q; cbn in Q; lia);
        destruct J as [J| ->];
        [rewrite nth_error_app1 in Q by (rewrite map_length, Len; auto); rewrite nth_error_map in Q; destruct (nth_error (firstn k ps) j) as [q0|] eqn:Q0; [|discriminate];
           injection Q as <-; apply B; rewrite <- Q0; rewrite <- (firstn_skipn k ps) at 1; rewrite nth_error_app1; auto; rewrite Len; auto
        |rewrite nth_error_app2 in Q by (rewrite map_length, Len; auto); rewrite map_length, Len, Nat.sub_diag in Q; injection Q as <-; auto].
Qed.
End Cont.

(** * The operator *)
Lemma neg_false q : neg_ q = false <-> (0 <= q)%Q.
Proof. unfold neg_. rewrite <- Qle_bool_iff. destruct (Qle_bool 0 q); cbn; split; congruence. Qed.
Lemma over_false q m : over q m = false <-> (q <= m)%Q.
Proof. unfold over. rewrite <- Qle_bool_iff. destruct (Qle_bool q m); cbn; split; congruence. Qed.
