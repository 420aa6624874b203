(** Consequences over whole histories: served signals, Ctrl C, the continuator of an
    arbitrary signal and the store of functors. *)
From Coq Require Import Arith ZArith String Ascii Lia List Bool.
From Verif Require Import Lib Outcome SrvModel SrvSpec SrvProofs.
Import ListNotations.

Section Signals.
Context (sigof : nat -> nat) (verdict : nat -> nat -> bool).
Notation step := (sig_step sigof verdict).
Notation run := (sig_run sigof verdict).

Lemma head_step w es w' x t :
  run w es = Some (w', x :: t) ->
  match x with
  | Called i => exists r, es = Begin i :: r /\ at_ w = Idle /\
      run (World (flags w) (handled w) (AtTest i) (checks w)) r = Some (w', t)
  | Cleared i => at_ w = AtClear i
  | _ => True
  end.
Proof.
  destruct es as [|e r]; cbn [sig_run]; [discriminate|].
  destruct (step w e) as [[w1 t1]|] eqn:E1; [|discriminate].
  destruct (run w1 r) as [[w2 t2]|] eqn:E2; [|discriminate].
  intros E; injection E as <- E. destruct e as [s|j|j|]; cbn [sig_step] in E1.
  - destruct (handled w s); [|discriminate]. injection E1 as _ <-.
    injection E as <- _; auto.
  - destruct (at_ w) eqn:A; try discriminate; injection E1 as <- <-. injection E as <- <-; eauto.
  - destruct (at_ w); try discriminate; injection E1 as _ <-. injection E as <- _; auto.
  - destruct (at_ w) eqn:A; try discriminate.
    + destruct (flags w (sigof i)); injection E1 as _ <-; injection E as <- _; auto.
    + injection E1 as _ <-; injection E as <- _; auto.
    + injection E1 as _ <-; injection E as <- _; auto.
Qed.

Lemma served es w t t1 s t2 i t3 :
  run world_init es = Some (w, t) -> at_ w = Idle ->
  t = t1 ++ Raised s :: t2 ++ Called i :: t3 -> sigof i = s ->
  (forall j, In (Made j) (t2 ++ Called i :: t3) -> sigof j <> s) ->
  exists j b, sigof j = s /\ In (Checked j b) (t2 ++ Called i :: t3).
Proof.
  intros E D -> S N.
  destruct (existsb (fun x => match x with Cleared j => Nat.eqb (sigof j) s | _ => false end)
              (t2 ++ Called i :: t3)) eqn:X.
  - apply existsb_exists in X as (x & I & X). destruct x as [| | | |j| |]; try discriminate.
    apply Nat.eqb_eq in X. destruct (in_split _ _ I) as (a & b & Q). rewrite Q in *.
    replace (t1 ++ Raised s :: a ++ Cleared j :: b) with ((t1 ++ Raised s :: a) ++ Cleared j :: b) in E
      by (rewrite <- app_assoc; reflexivity).
    destruct (run_split _ _ _ _ _ _ _ _ E Logic.I) as (es1 & e & w1 & es2 & _ & R1 & R2).
    pose proof (head_step _ _ _ _ _ R2) as A. cbn beta iota in A.
    destruct (run_clear _ _ j _ _ _ _ A R2) as [_ J]. destruct (J D) as (v & _ & J2).
    exists j, v. split; auto. apply in_app_iff; right; auto.
  - assert (NC : forall x, In x (t2 ++ Called i :: t3) -> ~ takes sigof s x).
    { intros x I T. destruct x as [|j| | |j| |]; cbn [takes] in T; try contradiction.
      - exact (N j I T).
      - assert (existsb (fun x => match x with Cleared j => Nat.eqb (sigof j) s | _ => false end)
          (t2 ++ Called i :: t3) = true); [|congruence].
        apply existsb_exists. eexists; split; [exact I|]. cbn. apply Nat.eqb_eq; auto. }
    replace (t1 ++ Raised s :: t2 ++ Called i :: t3) with ((t1 ++ Raised s :: t2) ++ Called i :: t3) in E
      by (rewrite <- app_assoc; reflexivity).
    destruct (run_split _ _ _ _ _ _ _ _ E Logic.I) as (es1 & e & w1 & es2 & _ & R1 & R2).
    destruct (head_step _ _ _ _ _ R2) as (r & Q & A & R3).
    destruct (run_called sigof verdict i r _ _ _ (eq_refl : at_ (World (flags w1) (handled w1) (AtTest i) (checks w1)) = AtTest i) R3 D)
      as (u & v & -> & R).
    destruct (run_split _ _ _ _ _ _ _ _ R3 Logic.I) as (es3 & e4 & w4 & es4 & _ & R4 & R5).
    destruct (run_test _ _ _ _ _ _ _ R5) as [T _].
    assert (F : flags w4 (sigof i) = true).
    { rewrite (run_flag _ _ _ _ _ _ (sigof i) R4); cbn [flags].
      rewrite (run_flag _ _ _ _ _ _ (sigof i) R1), flag_app; cbn [flag_after].
      rewrite S, Nat.eqb_refl, <- flag_app. apply flag_no_take; [exact verdict|].
      intros x I T'. apply (NC x); auto. apply in_app_iff in I as [I|I].
      - apply in_app_iff; auto.
      - apply in_app_iff; right. right. apply in_app_iff; auto. }
    destruct (T F) as [_ J]. destruct (J D) as (b & J').
    exists i, b. split; auto. apply in_app_iff; right; right. apply in_app_iff; right; right; auto.
Qed.

(** No more evaluations than signals. *)
Definition here (s : nat) (p : pc) : nat :=
  match p with AtCheck i => if Nat.eqb (sigof i) s then 1 else 0 | _ => 0 end.
Definition owed (s : nat) (w : world) : nat :=
  here s (at_ w) + (if flags w s then 1 else 0).
Definition clearing_ok (w : world) : Prop :=
  match at_ w with AtClear i => flags w (sigof i) = true | _ => True end.

Lemma count_app p t u : count p (t ++ u) = count p t + count p u.
Proof. unfold count. rewrite filter_app, app_length; auto. Qed.

Lemma step_owed s w e w' t :
  clearing_ok w -> step w e = Some (w', t) ->
  clearing_ok w' /\
  count (is_check sigof s) t + owed s w' <= count (is_raise s) t + owed s w.
Proof.
  unfold clearing_ok, owed. intros C. destruct e as [s'|i|i|]; cbn [sig_step].
  - destruct (handled w s'); [|discriminate]. intros E; injection E as <- <-.
    cbn [at_ flags]. split.
    + destruct (at_ w); auto. unfold fset. destruct (_ =? _); auto.
    + unfold count; cbn [filter is_raise is_check List.length]. unfold fset.
      rewrite (Nat.eqb_sym s s'). destruct (Nat.eqb_spec s' s); cbn [List.length];
        destruct (flags w s); lia.
  - destruct (at_ w); try discriminate. intros E; injection E as <- <-.
    cbn [at_ flags here]. unfold count; cbn. lia.
  - destruct (at_ w); try discriminate. intros E; injection E as <- <-.
    cbn [at_ flags here]. unfold count; cbn. unfold fset. split; auto.
    destruct (s =? sigof i); destruct (flags w s); lia.
  - destruct (at_ w) eqn:A; try discriminate.
    + destruct (flags w (sigof i)) eqn:F; intros E; injection E as <- <-; cbn [at_ flags here];
        unfold count; cbn; split; auto; lia.
    + intros E; injection E as <- <-; cbn [at_ flags here]; unfold count; cbn. split; auto.
      unfold fset. rewrite (Nat.eqb_sym s). destruct (Nat.eqb_spec (sigof i) s); subst; rewrite ?C; lia.
    + intros E; injection E as <- <-; cbn [at_ flags here]; unfold count; cbn. split; auto.
      destruct (sigof i =? s); cbn [List.length]; lia.
Qed.

Lemma run_owed s es : forall w w' t,
  clearing_ok w -> run w es = Some (w', t) ->
  count (is_check sigof s) t + owed s w' <= count (is_raise s) t + owed s w.
Proof.
  induction es as [|e r IH]; intros w w' t C; cbn [sig_run].
  - intros E; injection E as <- <-. cbn; lia.
  - destruct (step w e) as [[w1 t1]|] eqn:E1; [|discriminate].
    destruct (run w1 r) as [[w2 t2]|] eqn:E2; [|discriminate].
    intros E; injection E as <- <-.
    destruct (step_owed s _ _ _ _ C E1) as [C1 L1].
    specialize (IH _ _ _ C1 E2). rewrite !count_app. lia.
Qed.

(** Each evaluation gives the next verdict. *)
Lemma verdicts_app i t u : verdicts i (t ++ u) = verdicts i t ++ verdicts i u.
Proof. apply flat_map_app. Qed.

Lemma step_verdicts i w e w' t :
  step w e = Some (w', t) ->
  verdicts i t = map (verdict i) (seq (checks w i) (List.length (verdicts i t))) /\
  checks w' i = checks w i + List.length (verdicts i t).
Proof.
  destruct e as [s'|j|j|]; cbn [sig_step].
  - destruct (handled w s'); [|discriminate]. intros E; injection E as <- <-. cbn. split; auto.
  - destruct (at_ w); try discriminate; intros E; injection E as <- <-. cbn. split; auto.
  - destruct (at_ w); try discriminate; intros E; injection E as <- <-. cbn. split; auto.
  - destruct (at_ w); try discriminate.
    + destruct (flags w (sigof i0)); intros E; injection E as <- <-; cbn; split; auto.
    + intros E; injection E as <- <-; cbn; split; auto.
    + intros E; injection E as <- <-. cbn [checks verdicts flat_map app].
      unfold fset. rewrite (Nat.eqb_sym i i0).
      destruct (Nat.eqb_spec i0 i); subst; cbn; split; auto; lia.
Qed.

Lemma run_verdicts i es : forall w w' t,
  run w es = Some (w', t) ->
  verdicts i t = map (verdict i) (seq (checks w i) (List.length (verdicts i t))).
Proof.
  induction es as [|e r IH]; intros w w' t; cbn [sig_run].
  - intros E; injection E as <- <-. auto.
  - destruct (step w e) as [[w1 t1]|] eqn:E1; [|discriminate].
    destruct (run w1 r) as [[w2 t2]|] eqn:E2; [|discriminate].
    intros E; injection E as <- <-.
    destruct (step_verdicts i _ _ _ _ E1) as [V1 C1].
    specialize (IH _ _ _ E2). rewrite verdicts_app, app_length, seq_app, map_app, <- C1.
    rewrite <- V1, <- IH. reflexivity.
Qed.
End Signals.

(** * Ctrl C *)

Definition is_kmake (o : kop) : bool := match o with KMake => true | _ => false end.
Definition is_kraise (o : kop) : bool := match o with KRaise => true | _ => false end.

Definition ctrlc_after (h : list kop) : ctrlc :=
  CtrlC (existsb is_kmake h) (existsb is_kraise h)
        (if existsb is_kraise h then Ignored else if existsb is_kmake h then Handled else Default).

Lemma ctrlc_runs os : forall h,
  (forall a b, h ++ os = a ++ KRaise :: b -> In KMake a) ->
  forall n o, nth_error os n = Some o ->
  nth_error (ctrlc_run (ctrlc_after h) os) n =
  Some (match o with
        | KMake => if existsb is_kmake (h ++ firstn n os) then KRefused else KDone
        | KCall => KAnswer (negb (existsb is_kraise (h ++ firstn n os)))
        | _ => KDone
        end).
Proof.
  induction os as [|o r IH]; intros h S n q Q; [destruct n; discriminate|].
  assert (S' : forall a b, (h ++ [o]) ++ r = a ++ KRaise :: b -> In KMake a)
    by (intros a b; rewrite <- app_assoc; apply S).
  specialize (IH (h ++ [o]) S').
  assert (St : exists a, ctrlc_step (ctrlc_after h) o = (ctrlc_after (h ++ [o]), a) /\
     a <> KKilled /\
     a = match o with
        | KMake => if existsb is_kmake h then KRefused else KDone
        | KCall => KAnswer (negb (existsb is_kraise h))
        | _ => KDone
        end).
  { unfold ctrlc_after. rewrite !existsb_app. destruct o; cbn [ctrlc_step exist_ stop disp existsb is_kmake is_kraise].
    - rewrite !orb_true_r, !orb_false_r.
      destruct (existsb is_kmake h) eqn:M.
      + eexists; repeat split; discriminate.
      + destruct (existsb is_kraise h) eqn:R; [|eexists; repeat split; discriminate].
        apply existsb_exists in R as (x & I & X). destruct x; try discriminate.
        destruct (in_split _ _ I) as (a & b & ->).
        assert (In KMake a) by (apply (S a (b ++ KMake :: r)); rewrite <- app_assoc; reflexivity).
        assert (existsb is_kmake (a ++ KRaise :: b) = true); [|congruence].
        apply existsb_exists. exists KMake; split; auto. apply in_app_iff; auto.
    - rewrite !orb_false_r. eexists; repeat split; discriminate.
    - assert (M : existsb is_kmake h = true).
      { apply existsb_exists. exists KMake; split; auto. apply (S h r); auto. }
      rewrite M, !orb_true_r. cbn [orb].
      destruct (existsb is_kraise h); eexists; repeat split; discriminate.
    - rewrite !orb_false_r. eexists; repeat split; try discriminate. }
  destruct St as (a & E & K & A). cbn [ctrlc_run]. rewrite E.
  replace (match a with KKilled => [KKilled] | _ => a :: ctrlc_run (ctrlc_after (h ++ [o])) r end)
    with (a :: ctrlc_run (ctrlc_after (h ++ [o])) r) by (destruct a; auto; contradiction).
  destruct n as [|n]; cbn [nth_error firstn] in *.
  - injection Q as <-. rewrite app_nil_r, A. reflexivity.
  - rewrite (IH n q Q), <- !app_assoc. reflexivity.
Qed.

(** * The continuator of an arbitrary signal *)

Fixpoint sflag (b : bool) (t : list sseen) : bool :=
  match t with
  | [] => b
  | x :: r => sflag (match x with SRaised => true | SCleared => false | _ => b end) r
  end.

Lemma sflag_app t u : forall b, sflag b (t ++ u) = sflag (sflag b t) u.
Proof. induction t; intros; cbn [app sflag]; auto. Qed.

Lemma sflag_waiting t : sflag false t = true <-> swaiting t.
Proof.
  split.
  - induction t as [|x t IH] using rev_ind; cbn [sflag]; [discriminate|].
    rewrite sflag_app; cbn [sflag].
    assert (K : sflag false t = true -> x <> SCleared -> swaiting (t ++ [x])).
    { intros F N. destruct (IH F) as (t1 & t2 & -> & Q).
      exists t1, (t2 ++ [x]). split; [rewrite <- app_assoc; auto|].
      intros Y. apply in_app_iff in Y as [Y|[Y|[]]]; auto. }
    destruct x; intros F; try (apply K; auto; discriminate); try discriminate.
    exists t, []. split; auto.
  - intros (t1 & t2 & -> & N). rewrite sflag_app; cbn [sflag].
    clear t1. induction t2 as [|x t IH]; cbn [sflag]; auto.
    assert (IH' : sflag true t = true) by (apply IH; intros I; apply N; right; auto).
    destruct x; auto. destruct N; left; auto.
Qed.

Lemma sigc_flag es : forall w w' t,
  sigc_run w es = Some (w', t) -> call_func w' = sflag (call_func w) t.
Proof.
  induction es as [|e r IH]; intros w w' t; cbn [sigc_run].
  - intros E; injection E as <- <-; auto.
  - destruct (sigc_step w e) as [[w1 t1]|] eqn:E1; [|discriminate].
    destruct (sigc_run w1 r) as [[w2 t2]|] eqn:E2; [|discriminate].
    intros E; injection E as <- <-. rewrite sflag_app.
    rewrite (IH _ _ _ E2). f_equal. unfold sigc_step in E1.
    destruct e, (sat w); try discriminate; try (injection E1 as <- <-; reflexivity).
    destruct (call_func w) eqn:F; injection E1 as <- <-; cbn; auto.
Qed.

Lemma sigc_split es : forall w w' t1 t2,
  sigc_run w es = Some (w', t1 ++ STested :: t2) ->
  exists es1 w1 es2, es = es1 ++ SStep :: es2 /\ sigc_run w es1 = Some (w1, t1) /\
    sat w1 = STest /\ sigc_run w1 (SStep :: es2) = Some (w', STested :: t2).
Proof.
  induction es as [|e r IH]; intros w w' t1 t2 E; cbn [sigc_run] in E.
  - injection E as _ E. destruct t1; discriminate.
  - destruct (sigc_step w e) as [[w1 u1]|] eqn:E1; [|discriminate].
    destruct (sigc_run w1 r) as [[w2 u2]|] eqn:E2; [|discriminate].
    injection E as -> E.
    assert (H : (exists v, t1 = u1 ++ v /\ u2 = v ++ STested :: t2) \/
                (t1 = [] /\ e = SStep /\ sat w = STest)).
    { assert (G : forall a u, u1 = a :: u -> (a = STested -> e = SStep /\ sat w = STest) ->
               (u = [] \/ u = [SReturned true]) ->
               (exists v, t1 = u1 ++ v /\ u2 = v ++ STested :: t2) \/
               (t1 = [] /\ e = SStep /\ sat w = STest)).
      { intros a u -> Ha Hu. destruct t1 as [|y t1]; cbn [app] in E; injection E as E0 E.
        - right; split; auto.
        - left. subst y. destruct Hu as [->| ->]; cbn [app] in *.
          + exists t1; auto.
          + destruct t1 as [|z t1]; cbn [app] in E; [discriminate|]. injection E as <- E.
            exists t1; auto. }
      unfold sigc_step in E1. destruct e, (sat w) eqn:A; try discriminate;
        try (destruct (call_func w)); injection E1 as _ E1; symmetry in E1;
        eapply G; eauto; try discriminate. }
    destruct H as [(v & -> & ->)|(-> & -> & A)].
    + destruct (IH w1 w' v t2 E2) as (es1 & w3 & es2 & -> & R1 & R2).
      exists (e :: es1), w3, es2. split; [reflexivity|]. split; auto.
      cbn [sigc_run]. rewrite E1, R1. reflexivity.
    + exists [], w, r. split; [reflexivity|]. split; [reflexivity|]. split; auto.
      cbn [sigc_run]. cbn [app] in E. rewrite E1, E2, E. reflexivity.
Qed.

Lemma sraises_cons t : sonly_raises t -> sonly_raises (SRaised :: t).
Proof. intros R x [<-|X]; eauto. Qed.
Lemma sraises_nil : sonly_raises [].
Proof. intros x []. Qed.

Lemma sigc_clear es : forall w w' t,
  sat w = SClear -> sigc_run w es = Some (w', t) ->
  sonly_raises t \/ (exists u v, t = u ++ SCleared :: SReturned true :: v /\ sonly_raises u).
Proof.
  induction es as [|e r IH]; intros w w' t A; cbn [sigc_run].
  - intros E; injection E as <- <-. left; auto using sraises_nil.
  - unfold sigc_step; rewrite A. destruct e; try discriminate.
    + destruct (sigc_run (SWorld true SClear) r) as [[w2 t2]|] eqn:E2; [|discriminate].
      intros E; injection E as <- <-.
      destruct (IH (SWorld true SClear) _ _ eq_refl E2) as [R|(u & v & -> & R)].
      * left; apply sraises_cons; auto.
      * right; exists (SRaised :: u), v; split; auto. apply sraises_cons; auto.
    + destruct (sigc_run (SWorld false SIdle) r) as [[w2 t2]|] eqn:E2; [|discriminate].
      intros E; injection E as <- <-. right; exists [], t2; split; auto using sraises_nil.
Qed.

Lemma sigc_function es : forall w w' t,
  sat w = SFunction -> sigc_run w es = Some (w', t) -> sserving t.
Proof.
  induction es as [|e r IH]; intros w w' t A; cbn [sigc_run].
  - intros E; injection E as <- <-. apply ssv_before, sraises_nil.
  - unfold sigc_step; rewrite A. destruct e; try discriminate.
    + destruct (sigc_run (SWorld true SFunction) r) as [[w2 t2]|] eqn:E2; [|discriminate].
      intros E; injection E as <- <-. cbn [app].
      pose proof (IH (SWorld true SFunction) _ _ eq_refl E2) as Q. inversion Q as [u R|u v R R'|u v z R R']; subst.
      * apply ssv_before, sraises_cons; auto.
      * apply (ssv_between (SRaised :: u) v); auto. apply sraises_cons; auto.
      * apply (ssv_done (SRaised :: u) v z); auto. apply sraises_cons; auto.
    + destruct (sigc_run (SWorld (call_func w) SClear) r) as [[w2 t2]|] eqn:E2; [|discriminate].
      intros E; injection E as <- <-. cbn [app].
      destruct (sigc_clear _ _ _ _ (eq_refl : sat (SWorld (call_func w) SClear) = SClear) E2)
        as [R|(u & v & -> & R)].
      * apply (ssv_between [] t2); auto using sraises_nil.
      * apply (ssv_done [] u v); auto using sraises_nil.
Qed.

Lemma sigc_tested es w t t1 t2 :
  sigc_run sworld_init es = Some (w, t) -> t = t1 ++ STested :: t2 ->
  (swaiting t1 -> sserving t2) /\ (~ swaiting t1 -> exists u, t2 = SReturned true :: u).
Proof.
  intros E ->. destruct (sigc_split _ _ _ _ _ E) as (es1 & w1 & es2 & -> & R1 & A & R2).
  pose proof (sigc_flag _ _ _ _ R1) as F. cbn [call_func sworld_init] in F.
  cbn [sigc_run] in R2. unfold sigc_step in R2. rewrite A in R2.
  rewrite <- sflag_waiting, <- F. destruct (call_func w1) eqn:C.
  - destruct (sigc_run (SWorld true SFunction) es2) as [[w2 u2]|] eqn:E2; [|discriminate].
    injection R2 as _ <-. split; [|intros N; contradiction N; auto].
    intros _. exact (sigc_function _ _ _ _ (eq_refl : sat (SWorld true SFunction) = SFunction) E2).
  - destruct (sigc_run (SWorld false SIdle) es2) as [[w2 u2]|] eqn:E2; [|discriminate].
    injection R2 as _ <-. split; [discriminate|]. intros _; eauto.
Qed.

(** * The store *)

Definition heap_ok (h : heap) : Prop := live h = rev (seq 0 (next h)).

Lemma live_in h p : is_live h p = true <-> In p (live h).
Proof.
  unfold is_live. rewrite existsb_exists. split.
  - intros (x & I & X). apply Nat.eqb_eq in X; subst; auto.
  - intros I; exists p; split; auto. apply Nat.eqb_refl.
Qed.

Lemma store_runs os : forall h v h' v',
  heap_ok h -> store_run (h, v) os = Ok (h', v') ->
  heap_ok h' /\ v' = v ++ stored (next h) os /\ next h' = next h + allocated os /\
  (forall p, In p v' -> In p v \/ In p (live h')).
Proof.
  induction os as [|o r IH]; intros h v h' v' K; cbn [store_run].
  - intros E; injection E as <- <-. cbn. rewrite app_nil_r, Nat.add_0_r. auto.
  - assert (KN : heap_ok (Heap (next h :: live h) (S (next h)))).
    { unfold heap_ok in *. cbn [live next]. rewrite seq_S, rev_app_distr, K. reflexivity. }
    destruct o as [|p|]; cbn [store_step rbind].
    + intros E. destruct (IH _ _ _ _ KN E) as (A & B & C & D). cbn [next stored] in *.
      unfold allocated in *; cbn [filter List.length] in *. rewrite C.
      repeat split; auto; lia.
    + destruct (is_live h p) eqn:L; [|discriminate]. cbn [rbind]. intros E.
      destruct (IH _ _ _ _ K E) as (A & B & C & D). cbn [stored].
      unfold allocated in *; cbn [filter] in *.
      split; auto. split; [rewrite B, <- app_assoc; auto|]. split; auto.
      intros q Q. destruct (D q Q) as [I|I]; auto.
      apply in_app_iff in I as [I|[<-|[]]]; auto. right.
      apply live_in in L. unfold heap_ok in K, A. rewrite A, C. rewrite K in L.
      rewrite <- in_rev, in_seq in *. lia.
    + intros E. destruct (IH _ _ _ _ KN E) as (A & B & C & D). cbn [next stored] in *.
      unfold allocated in *; cbn [filter List.length] in *.
      split; auto. split; [rewrite B, <- app_assoc; auto|]. split; [lia|].
      intros q Q. destruct (D q Q) as [I|I]; auto.
      apply in_app_iff in I as [I|[<-|[]]]; auto. right.
      unfold heap_ok in A. rewrite A, C, <- in_rev, in_seq. lia.
Qed.

Lemma close_ok v : forall h, NoDup v -> (forall p, In p v -> In p (live h)) ->
  exists h', store_close h v = Ok h' /\ next h' = next h /\
    live h' = filter (fun q => negb (existsb (Nat.eqb q) v)) (live h).
Proof.
  induction v as [|p r IH]; intros h N L; cbn [store_close].
  - exists h. split; auto. split; auto. cbn.
    clear L. induction (live h) as [|x l I]; cbn; auto. f_equal; auto.
  - inversion N as [|? ? NI Nr]; subst. unfold delete.
    rewrite (proj2 (live_in h p)) by (apply L; left; auto). cbn [rbind].
    destruct (IH (Heap (filter (fun q => negb (p =? q)) (live h)) (next h)) Nr)
      as (h' & E & Q & F).
    + intros q I. cbn [live]. apply filter_In. split; [apply L; right; auto|].
      destruct (Nat.eqb_spec p q); auto. subst; contradiction.
    + exists h'. split; auto. split; auto. rewrite F; cbn [live existsb].
      clear. induction (live h) as [|x l I]; cbn; auto.
      rewrite (Nat.eqb_sym p x). destruct (Nat.eqb_spec x p); cbn; auto.
      destruct (existsb (Nat.eqb x) r); cbn; auto. f_equal; auto.
Qed.

Lemma close_dup v : forall h, ~ NoDup v -> store_close h v = UB.
Proof.
  induction v as [|p r IH]; intros h N; cbn [store_close].
  - destruct N; constructor.
  - unfold delete. destruct (is_live h p) eqn:L; [|reflexivity]. cbn [rbind].
    destruct (in_dec Nat.eq_dec p r) as [I|I].
    + clear IH N. set (h' := Heap (filter (fun q => negb (p =? q)) (live h)) (next h)).
      assert (D : ~ In p (live h')).
      { cbn. rewrite filter_In. rewrite Nat.eqb_refl. intros [_ Q]; discriminate. }
      clearbody h'. clear L h. revert h' D.
      induction r as [|q r IH]; intros h D; [destruct I|]. cbn [store_close]. unfold delete.
      destruct (is_live h q) eqn:L; [|reflexivity]. cbn [rbind].
      destruct I as [->|I].
      * apply live_in in L. contradiction.
      * apply IH; auto. cbn. rewrite filter_In. intros [Q _]; auto.
    + apply IH. intros K; apply N; constructor; auto.
Qed.
