(** C190-C193: the logger, the continuators driven by signals, the store of functors. *)
From Coq Require Import Arith ZArith String Ascii Lia List Bool.
From Verif Require Import Lib Outcome SrvModel SrvSpec SrvProofs SrvMore.
Import ListNotations.

(** ** C190: the logger *)

(** whatever is sent to a new logger, each message goes whole, in order, to the last target chosen before it, exactly when the last level
    given before it is at most the last level selected before it *)
Theorem C190_messages (ops : list lop) :
  snd (logger_run logger_init ops) = outputs [] ops.
Proof. apply (run_outputs ops logger_init []), init_agrees. Qed.
Example C190_messages_ex :
  snd (logger_run logger_init [LLevel warnings; LText "a"; LLevel debug; LText "b"; LFile 5; LSelectName "debug"; LText "c";
                               LStream Cout; LStream OtherStream; LText "de"])
  = [(2%Z, "a"%char); (5%Z, "c"%char); (1%Z, "d"%char); (1%Z, "e"%char)].
Proof. reflexivity. Qed.

(** the same after make_verbose: -v (quiet by default) acts as a selection, -o as a redirection before it *)
Theorem C190_verbose (o : option Z) (v : string) (ops : list lop) :
  snd (logger_run (make_verbose logger_init o v) ops)
  = outputs (match o with Some a => [LFile a] | None => [] end ++ [LSelectName v]) ops.
Proof.
  apply run_outputs. unfold make_verbose. destruct o as [a|].
  - apply (agrees_step _ [LFile a]). apply (agrees_step _ [] (LFile a)), init_agrees.
  - apply (agrees_step _ [] (LSelectName v)), init_agrees.
Qed.
Example C190_verbose_ex :
  snd (logger_run (make_verbose logger_init (Some 4%Z) "warnings") [LLevel errors; LText "x"; LLevel progress; LText "y"]) = [(4%Z, "x"%char)].
Proof. reflexivity. Qed.

(** and on a logger that has been used before: everything it was told still counts *)
Theorem C190_verbose_later (before : list lop) (o : option Z) (v : string) (ops : list lop) :
  snd (logger_run (make_verbose (fst (logger_run logger_init before)) o v) ops)
  = outputs (before ++ match o with Some a => [LFile a] | None => [] end ++ [LSelectName v]) ops.
Proof.
  destruct (run_outputs before logger_init [] init_agrees) as [_ A]. cbn [app] in A.
  apply run_outputs. unfold make_verbose. destruct o as [a|].
  - change (before ++ [LFile a] ++ [LSelectName v]) with (before ++ [LFile a; LSelectName v]). replace (before ++ [LFile a; LSelectName v]) with ((before ++ [LFile a]) ++ [LSelectName v]) by (rewrite <- app_assoc; reflexivity).
    apply agrees_step, agrees_step, A.
  - apply agrees_step, A.
Qed.
Example C190_verbose_later_ex :
  snd (logger_run (make_verbose (fst (logger_run logger_init [LFile 4%Z; LLevel warnings])) None "warnings") [LText "x"]) = [(4%Z, "x"%char)].
Proof. reflexivity. Qed.

(** a higher verbosity never loses anything: the output with the lower level is what is left of the other one *)
Theorem C190_more_verbose (low high context : nat) (fd : Z) (ops : list lop) :
  low <= high -> Forall no_select ops ->
  sub (snd (logger_run (Logger low context fd) ops)) (snd (logger_run (Logger high context fd) ops)).
Proof. intros; apply run_more; auto. Qed.
Example C190_more_verbose_ex :
  Forall no_select [LLevel errors; LText "x"; LLevel debug; LText "y"] /\
  snd (logger_run (Logger warnings quiet 2) [LLevel errors; LText "x"; LLevel debug; LText "y"]) = [(2%Z, "x"%char)] /\
  snd (logger_run (Logger debug quiet 2) [LLevel errors; LText "x"; LLevel debug; LText "y"]) = [(2%Z, "x"%char); (2%Z, "y"%char)].
Proof. repeat constructor. Qed.

(** the seven names select the seven levels, in the order of the verbosity *)
Theorem C190_names (l : logger) (n : nat) (s : string) :
  nth_error ["quiet"; "errors"; "warnings"; "progress"; "logging"; "debug"; "xdebug"]%string n = Some s ->
  selected (fst (logger_step l (LSelectName s))) = n /\
  selected (fst (logger_step l (LSelect n))) = n.
Proof.
  intros H. split; [|reflexivity]. cbn [logger_step fst selected]. rewrite named_rank.
  do 7 (destruct n as [|n]; [injection H as <-; reflexivity|]). destruct n; discriminate.
Qed.
Example C190_names_ex : nth_error ["quiet"; "errors"; "warnings"; "progress"; "logging"; "debug"; "xdebug"]%string 4 = Some "logging"%string.
Proof. reflexivity. Qed.

(** the destructor closes the last target when it is a file, and never a standard stream *)
Theorem C190_closing (ops : list lop) :
  forall d, In d (logger_close (fst (logger_run logger_init ops))) <->
            d = last_given gives_target 2%Z ops /\ (2 < d)%Z.
Proof.
  intros d. destruct (proj2 (run_outputs ops logger_init [] init_agrees)) as (_ & _ & F). cbn [app] in F.
  unfold logger_close. rewrite F. destruct (Z.ltb_spec 2 (last_given gives_target 2%Z ops)); cbn [In].
  - split; [intros [<-|[]]; auto|intros [-> _]; auto].
  - split; [intros []|intros [-> L]; lia].
Qed.
Example C190_closing_ex : logger_close (fst (logger_run logger_init [LFile 3; LText "a"; LFile 7])) = [7%Z] /\
  logger_close (fst (logger_run logger_init [LFile 3; LStream Cerr])) = [].
Proof. split; reflexivity. Qed.

(** ** C191: signals *)

(** eoSignal: whatever the calls and whenever the signals come, a call that finds its signal waiting takes it into account, then evaluates its
    checkpoint and returns its verdict; a call that does not returns true and does nothing else *)
Theorem C191_calls (sigof : nat -> nat) (verdict : nat -> nat -> bool) (es : list event) (w : world) (t t1 t2 : list seen) (i : nat) :
  sig_run sigof verdict world_init es = Some (w, t) -> t = t1 ++ Tested i :: t2 ->
  (waiting sigof (sigof i) t1 -> serving i t2 /\ (at_ w = Idle -> exists b, In (Checked i b) t2)) /\
  (~ waiting sigof (sigof i) t1 -> exists u, t2 = Returned i true :: u).
Proof.
  intros E ->. destruct (run_split _ _ _ _ _ _ _ _ E I) as (es1 & e & w1 & es2 & -> & R1 & R2).
  pose proof (run_flag _ _ _ _ _ _ (sigof i) R1) as F. cbn [flags world_init] in F.
  destruct (run_test _ _ _ _ _ _ _ R2) as [T1 T2].
  rewrite <- (flag_waiting sigof verdict), <- F. split; auto. intros N. apply T2.
  destruct (flags w1 (sigof i)); auto. contradiction N; auto.
Qed.
(** a signal that comes while its checkpoint is being served is kept for the next call *)
Example C191_calls_ex :
  match sig_run (fun _ => 2) (fun _ k => Nat.even k) world_init
    [Make 0; Begin 0; Step; Raise 2; Raise 2; Begin 0; Step; Raise 2; Step; Raise 2; Step; Begin 0; Step; Step; Step; Begin 0; Step] with
  | Some (w, t) => at_ w = Idle /\
      t = [Made 0; Called 0; Tested 0; Returned 0 true; Raised 2; Raised 2; Called 0; Tested 0; Raised 2; Cleared 0; Raised 2;
           Checked 0 true; Returned 0 true; Called 0; Tested 0; Cleared 0; Checked 0 false; Returned 0 false; Called 0; Tested 0; Returned 0 true]
  | None => False
  end.
Proof. vm_compute. auto. Qed.

(** no signal is lost: once a call on it began after it came and ended, a checkpoint listening to it has been evaluated after it came
    (unless an object on this signal was constructed meanwhile) *)
Theorem C191_no_signal_lost (sigof : nat -> nat) (verdict : nat -> nat -> bool) (es : list event) (w : world) (t t1 t2 t3 : list seen) (s i : nat) :
  sig_run sigof verdict world_init es = Some (w, t) -> at_ w = Idle ->
  t = t1 ++ Raised s :: t2 ++ Called i :: t3 -> sigof i = s ->
  (forall j, In (Made j) (t2 ++ Called i :: t3) -> sigof j <> s) ->
  exists j b, sigof j = s /\ In (Checked j b) (t2 ++ Called i :: t3).
Proof. apply served. Qed.
Example C191_no_signal_lost_ex :
  match sig_run (fun _ => 2) (fun _ _ => false) world_init [Make 0; Raise 2; Begin 0; Step; Step; Step] with
  | Some (w, t) => at_ w = Idle /\ t = [Made 0] ++ Raised 2 :: [] ++ Called 0 :: [Tested 0; Cleared 0; Checked 0 false; Returned 0 false]
  | None => False
  end.
Proof. vm_compute. auto. Qed.

(** never more evaluations than signals *)
Theorem C191_no_evaluation_without_signal (sigof : nat -> nat) (verdict : nat -> nat -> bool) (es : list event) (w : world) (t : list seen) (s : nat) :
  sig_run sigof verdict world_init es = Some (w, t) ->
  count (is_check sigof s) t <= count (is_raise s) t.
Proof.
  intros E. assert (C : clearing_ok sigof world_init) by exact I.
  pose proof (run_owed sigof verdict s es _ _ _ C E) as L. cbn in L. lia.
Qed.
Example C191_no_evaluation_without_signal_ex :
  match sig_run (fun _ => 2) (fun _ _ => false) world_init [Make 0; Raise 2; Raise 2; Begin 0; Step; Step; Step; Begin 0; Step] with
  | Some (w, t) => count (is_check (fun _ => 2) 2) t = 1 /\ count (is_raise 2) t = 2
  | None => False
  end.
Proof. vm_compute. auto. Qed.

(** the checkpoint of an object is evaluated as often as it answers and its verdicts come in order, as if it were called by itself *)
Theorem C191_verdicts_in_order (sigof : nat -> nat) (verdict : nat -> nat -> bool) (es : list event) (w : world) (t : list seen) (i : nat) :
  sig_run sigof verdict world_init es = Some (w, t) ->
  verdicts i t = map (verdict i) (seq 0 (List.length (verdicts i t))).
Proof. intros E. exact (run_verdicts sigof verdict i es _ _ _ E). Qed.
Example C191_verdicts_in_order_ex :
  match sig_run (fun _ => 2) (fun _ k => Nat.even k) world_init [Make 0; Raise 2; Begin 0; Step; Step; Step; Raise 2; Begin 0; Step; Step; Step] with
  | Some (w, t) => verdicts 0 t = [true; false]
  | None => False
  end.
Proof. vm_compute. auto. Qed.

(** the continuator of Ctrl C: the first construction succeeds and any other throws; it answers true until the signal comes and false ever after *)
Theorem C191_ctrl_c (os : list kop) :
  (forall a b, os = a ++ KRaise :: b -> In KMake a) ->
  forall n o, nth_error os n = Some o ->
  nth_error (ctrlc_run ctrlc_init os) n =
  Some (match o with
        | KMake => if existsb is_kmake (firstn n os) then KRefused else KDone
        | KCall => KAnswer (negb (existsb is_kraise (firstn n os)))
        | _ => KDone
        end).
Proof. intros H. exact (ctrlc_runs os [] H). Qed.
Example C191_ctrl_c_ex :
  ctrlc_run ctrlc_init [KMake; KCall; KRaise; KCall; KMake; KRaise; KCall]
  = [KDone; KAnswer true; KDone; KAnswer false; KRefused; KDone; KAnswer false].
Proof. reflexivity. Qed.

(** before the construction the signal ends the program as usual *)
Theorem C191_ctrl_c_before (a b : list kop) :
  ~ In KMake a -> ~ In KRaise a ->
  ctrlc_run ctrlc_init (a ++ KRaise :: b) = map (fun o => match o with KCall => KAnswer true | _ => KDone end) a ++ [KKilled].
Proof.
  intros M R. induction a as [|o a IH]; [reflexivity|].
  assert (IH' : ctrlc_run ctrlc_init (a ++ KRaise :: b) = map (fun o => match o with KCall => KAnswer true | _ => KDone end) a ++ [KKilled])
    by (apply IH; intros Q; [apply M|apply R]; right; auto).
  destruct o; cbn [app ctrlc_run ctrlc_step ctrlc_init exist_ stop disp map].
  - destruct M; left; auto.
  - fold ctrlc_init. rewrite IH'. reflexivity.
  - destruct R; left; auto.
  - fold ctrlc_init. rewrite IH'. reflexivity.
Qed.
Example C191_ctrl_c_before_ex : ctrlc_run ctrlc_init [KCall; KRaise; KCall] = [KAnswer true; KKilled].
Proof. reflexivity. Qed.

(** eoSIGContinue: a call that finds its signal waiting calls the user's function once; another one does nothing *)
Theorem C191_function (es : list sevent) (w : sworld) (t t1 t2 : list sseen) :
  sigc_run sworld_init es = Some (w, t) -> t = t1 ++ STested :: t2 ->
  (swaiting t1 -> sserving t2) /\ (~ swaiting t1 -> exists u, t2 = SReturned true :: u).
Proof. apply sigc_tested. Qed.
Example C191_function_ex :
  match sigc_run sworld_init [SBegin; SStep; SRaise; SBegin; SStep; SStep; SStep; SBegin; SStep] with
  | Some (w, t) => t = [SCalled; STested; SReturned true; SRaised; SCalled] ++ STested :: [SRan; SCleared; SReturned true; SCalled; STested; SReturned true]
  | None => False
  end.
Proof. vm_compute. auto. Qed.

(** ** C192: what is documented or expected and does not hold *)

(** "Set the verbose level": a word that is not a level silences everything, errors included, without a notice *)
Theorem C192_unknown_level_refuted (v : string) (k : nat) (w : string) :
  ~ In v ["quiet"; "errors"; "warnings"; "progress"; "logging"; "debug"; "xdebug"]%string -> errors <= k ->
  snd (logger_run (make_verbose logger_init None v) [LLevel k; LText w]) = [].
Proof.
  intros N K. rewrite C190_verbose. cbn [app outputs message last_given gives_level gives_selected].
  unfold message; cbn [last_given gives_level gives_selected gives_target].
  assert (R : rank_of v = 0).
  { unfold rank_of. repeat match goal with |- context [string_dec v ?b] => destruct (string_dec v b) as [->|]; [destruct N; cbn; tauto|] end. reflexivity. }
  rewrite R. destruct (le_dec k 0); [unfold errors in K; lia|reflexivity].
Qed.
Example C192_unknown_level_ex : ~ In "Errors"%string ["quiet"; "errors"; "warnings"; "progress"; "logging"; "debug"; "xdebug"]%string.
Proof. cbn. intuition discriminate. Qed.

(** a file that cannot be opened loses every message, errors included, until the next redirection *)
Theorem C192_unopened_file_refuted (l : logger) (a : Z) (ops : list lop) :
  (a < 0)%Z -> (forall o, In o ops -> gives_target o = None) ->
  snd (logger_run (fst (logger_step l (LFile a))) ops) = [].
Proof.
  intros A N. cbn [logger_step fst]. generalize (selected l) (context l). induction ops as [|o r IH]; intros s c; cbn [logger_run]; [reflexivity|].
  assert (R : forall s c, snd (logger_run (Logger s c a) r) = []) by (apply IH; intros; apply N; right; auto).
  assert (P : forall w, put_text (Logger s c a) w = []).
  { intros w. rewrite put_text_map. cbn [context selected fd]. rewrite (proj2 (Z.leb_gt 0 a)) by lia. destruct (_ <=? _); reflexivity. }
  specialize (N o (or_introl eq_refl)).
  destruct o as [k|z|k|n|st|w]; cbn [logger_step selected context fd]; try discriminate.
  - specialize (R s k). destruct (logger_run (Logger s k a) r); auto.
  - specialize (R k c). destruct (logger_run (Logger k c a) r); auto.
  - specialize (R (named init_names n) c). destruct (logger_run (Logger (named init_names n) c a) r); auto.
  - destruct st; try discriminate. cbn [std_fd]. specialize (R s c). destruct (logger_run (Logger s c a) r); auto.
  - rewrite P. specialize (R s c). destruct (logger_run (Logger s c a) r); auto.
Qed.
Example C192_unopened_file_ex :
  snd (logger_run (fst (logger_step logger_init (LFile (-1)))) [LSelect xdebug; LLevel errors; LText "fatal"]) = [] /\
  snd (logger_run logger_init [LSelect xdebug; LLevel errors; LText "!"]) <> [].
Proof. split; [reflexivity|discriminate]. Qed.

(** a redirection to a stream other than the three standard ones does nothing *)
Theorem C192_other_stream_refuted (l : logger) (ops : list lop) :
  logger_run l (LStream OtherStream :: ops) = logger_run l ops.
Proof. cbn [logger_run logger_step std_fd]. destruct (logger_run l ops); reflexivity. Qed.

(** the destructor does not close the files that were left for another target *)
Theorem C192_files_closed_refuted : ~ (forall ops a, In (LFile a) ops -> (2 < a)%Z ->
  In a (logger_close (fst (logger_run logger_init ops)))).
Proof. intros H. specialize (H [LFile 3; LFile 4] 3%Z (or_introl eq_refl) eq_refl). cbn in H. destruct H as [H|[]]; discriminate. Qed.

(** "will be displayed only if we are above the quiet level": a message of the quiet level, or before any level was given, is displayed at
    every level *)
Theorem C192_quiet_messages_refuted (l : logger) (w : string) : (0 <= fd l)%Z ->
  snd (logger_run l [LSelect quiet; LLevel quiet; LText w]) = map (fun c => (fd l, c)) (list_ascii_of_string w).
Proof.
  intros F. cbn [logger_run logger_step selected context fd]. rewrite put_text_map. cbn [snd context selected fd app Nat.leb quiet].
  rewrite (proj2 (Z.leb_le 0 (fd l))) by auto. rewrite app_nil_r. reflexivity.
Qed.
Example C192_quiet_messages_ex : snd (logger_run logger_init [LSelect quiet; LLevel quiet; LText "hi"]) = [(2%Z, "h"%char); (2%Z, "i"%char)].
Proof. reflexivity. Qed.

(** two eoSignal objects on one signal: the first called takes it and the other one does not see it *)
Theorem C192_two_objects_refuted (verdict : nat -> nat -> bool) :
  match sig_run (fun _ => 2) verdict world_init [Make 0; Make 1; Raise 2; Begin 0; Step; Step; Step; Begin 1; Step] with
  | Some (w, t) => at_ w = Idle /\ verdicts 1 t = [] /\ In (Returned 1 true) t /\ In (Checked 0 (verdict 0 0)) t
  | None => False
  end.
Proof. cbn. auto 20. Qed.

(** an eoSignal constructed while its signal is waiting drops it *)
Theorem C192_construction_refuted (verdict : nat -> nat -> bool) :
  match sig_run (fun _ => 2) verdict world_init [Make 0; Raise 2; Make 1; Begin 0; Step; Begin 1; Step] with
  | Some (w, t) => at_ w = Idle /\ In (Raised 2) t /\ verdicts 0 t = [] /\ verdicts 1 t = []
  | None => False
  end.
Proof. cbn. auto 20. Qed.

(** an eoSignal does not ask the continuator it was given unless the signal came: its criterion never stops a run by itself *)
Theorem C192_wrapped_criterion_refuted (sigof : nat -> nat) (verdict : nat -> nat -> bool) (es : list event) (w : world) (t : list seen) (i : nat) (b : bool) :
  sig_run sigof verdict world_init es = Some (w, t) -> (forall s, ~ In (Raised s) t) -> In (Returned i b) t -> b = true.
Proof.
  intros E N R. destruct b; auto. exfalso.
  assert (C : count (is_check sigof (sigof i)) t <= count (is_raise (sigof i)) t)
    by exact (C191_no_evaluation_without_signal _ _ _ _ _ _ E).
  assert (Z0 : count (is_raise (sigof i)) t = 0).
  { unfold count. clear C E R. induction t as [|x t IH]; auto. cbn [filter]. destruct x; cbn [is_raise];
      try (apply IH; intros s0 Hs; apply (N s0); right; auto). destruct (N s); left; auto. }
  assert (Q : In (Checked i false) t).
  { clear C Z0 N. revert R. generalize world_init w t E. clear E w t. induction es as [|e r IH]; intros w w' t; cbn [sig_run].
    - intros E; injection E as <- <-. intros [].
    - destruct (sig_step sigof verdict w e) as [[w1 t1]|] eqn:E1; [|discriminate].
      destruct (sig_run sigof verdict w1 r) as [[w2 t2]|] eqn:E2; [|discriminate].
      intros E; injection E as <- <-. rewrite !in_app_iff. intros [R|R]; [left|right; eapply IH; eauto].
      destruct e; cbn [sig_step] in E1.
      + destruct (handled w s); [|discriminate]. injection E1 as _ <-. destruct R as [R|[]]; discriminate.
      + destruct (at_ w); try discriminate. injection E1 as _ <-. destruct R as [R|[]]; discriminate.
      + destruct (at_ w); try discriminate. injection E1 as _ <-. destruct R as [R|[]]; discriminate.
      + destruct (at_ w); try discriminate.
        * destruct (flags w (sigof i0)); injection E1 as _ <-; cbn in R; intuition discriminate.
        * injection E1 as _ <-. destruct R as [R|[]]; discriminate.
        * injection E1 as _ <-. cbn in *. destruct R as [R|[R|[]]]; [discriminate|]. injection R as -> R. rewrite R. auto. }
  apply in_split in Q as (a & c & ->). rewrite count_app in C. unfold count in C at 2. cbn [filter is_check] in C.
  rewrite Nat.eqb_refl in C. cbn [List.length] in C. lia.
Qed.
Example C192_wrapped_criterion_ex :
  match sig_run (fun _ => 2) (fun _ _ => false) world_init [Make 0; Begin 0; Step; Begin 0; Step] with
  | Some (w, t) => t = [Made 0; Called 0; Tested 0; Returned 0 true; Called 0; Tested 0; Returned 0 true]
  | None => False
  end.
Proof. reflexivity. Qed.

(** "A continuator that stops if a given signal is received", "Returns false when the signal has been typed": it never does *)
Theorem C192_never_stops_refuted (es : list sevent) (w : sworld) (t : list sseen) :
  sigc_run sworld_init es = Some (w, t) -> ~ In (SReturned false) t.
Proof.
  generalize sworld_init w t. clear w t. induction es as [|e r IH]; intros w w' t; cbn [sigc_run].
  - intros E; injection E as <- <-. intros [].
  - destruct (sigc_step w e) as [[w1 t1]|] eqn:E1; [|discriminate].
    destruct (sigc_run w1 r) as [[w2 t2]|] eqn:E2; [|discriminate].
    intros E; injection E as <- <-. rewrite in_app_iff. intros [R|R]; [|eapply IH; eauto].
    unfold sigc_step in E1. destruct e, (sat w); try discriminate; try (destruct (call_func w));
      injection E1 as _ <-; cbn in R; intuition discriminate.
Qed.
Example C192_never_stops_ex :
  match sigc_run sworld_init [SRaise; SBegin; SStep; SStep; SStep] with
  | Some (_, t) => t = [SRaised; SCalled; STested; SRan; SCleared; SReturned true]
  | None => False
  end.
Proof. reflexivity. Qed.

(** and a signal that comes while the user's function runs is lost *)
Theorem C192_lost_signal_refuted : ~ (forall es w t t1 t2,
  sigc_run sworld_init es = Some (w, t) -> sat w = SIdle -> t = t1 ++ SRaised :: t2 -> In SCalled t2 -> In SRan t2).
Proof.
  intros H. specialize (H [SRaise; SBegin; SStep; SStep; SRaise; SStep; SBegin; SStep] (SWorld false SIdle)
    [SRaised; SCalled; STested; SRan; SRaised; SCleared; SReturned true; SCalled; STested; SReturned true]
    [SRaised; SCalled; STested; SRan] [SCleared; SReturned true; SCalled; STested; SReturned true] eq_refl eq_refl eq_refl).
  cbn in H. intuition discriminate.
Qed.

(** the destruction of the continuator of Ctrl C does not allow another one *)
Theorem C192_second_run_refuted (os : list kop) : (forall o, In o os -> o <> KRaise) ->
  forall k, exist_ k = true -> nth_error (ctrlc_run k (os ++ [KDelete; KMake])) (S (List.length os)) = Some KRefused.
Proof.
  intros N. induction os as [|o r IH]; intros k K; cbn [app ctrlc_run ctrlc_step List.length].
  - rewrite K. reflexivity.
  - assert (R : forall k, exist_ k = true -> nth_error (ctrlc_run k (r ++ [KDelete; KMake])) (S (List.length r)) = Some KRefused)
      by (apply IH; intros; apply N; right; auto).
    destruct o; cbn [ctrlc_step]; rewrite ?K; [exact (R k K)|exact (R k K)| |exact (R k K)].
    destruct (N KRaise); [left|]; auto.
Qed.
Example C192_second_run_ex : ctrlc_run ctrlc_init [KMake; KDelete; KMake] = [KDone; KDone; KRefused].
Proof. reflexivity. Qed.

(** ** C193: the store of functors *)

(** a program that stores only what it allocated, each functor at most once, frees exactly the stored functors and leaves the others *)
Theorem C193_freed_once (os : list fop) (h : heap) (v : list nat) :
  store_run (Heap [] 0, []) os = Ok (h, v) -> NoDup (stored 0 os) ->
  exists h', store_close h v = Ok h' /\ v = stored 0 os /\
  forall p, In p (live h') <-> p < allocated os /\ ~ In p (stored 0 os).
Proof.
  intros E N. destruct (store_runs os (Heap [] 0) [] h v eq_refl E) as (K & V & A & L). cbn [app next] in *. subst v.
  destruct (close_ok (stored 0 os) h N) as (h' & C & _ & F).
  { intros p I. destruct (L p I) as [[]|]; auto. }
  exists h'. split; auto. split; auto. intros p. rewrite F, filter_In. unfold heap_ok in K. rewrite K, A, <- in_rev, in_seq, Nat.add_0_l.
  rewrite negb_true_iff, <- not_true_iff_false, existsb_exists. split.
  - intros [B Q]. split; [lia|]. intros I. apply Q. exists p; split; auto. apply Nat.eqb_refl.
  - intros [B Q]. split; [lia|]. intros (x & I & X). apply Nat.eqb_eq in X; subst; auto.
Qed.
Example C193_freed_once_ex :
  match store_run (Heap [] 0, []) [FPack; FNew; FPack; FNew; FStore 1] with
  | Ok (h, v) => v = [0; 2; 1] /\ match store_close h v with Ok h' => live h' = [3] | _ => False end
  | _ => False
  end.
Proof. vm_compute. auto. Qed.

(** a program that only packs is always safe, and leaves nothing allocated *)
Theorem C193_pack_safe (n : nat) :
  exists h v h', store_run (Heap [] 0, []) (repeat FPack n) = Ok (h, v) /\ List.length v = n /\ store_close h v = Ok h' /\ live h' = [].
Proof.
  assert (St : forall n k, stored k (repeat FPack n) = seq k n) by (induction n0; intros; cbn; f_equal; auto).
  assert (Al : allocated (repeat FPack n) = n).
  { clear. unfold allocated. induction n; cbn in *; auto. }
  assert (Rn : forall n h v, exists h' v', store_run (h, v) (repeat FPack n) = Ok (h', v')).
  { clear. induction n as [|n IH]; intros h v; [exists h, v; reflexivity|]. cbn [repeat store_run store_step rbind]. apply IH. }
  destruct (Rn n (Heap [] 0) []) as (h & v & E).
  destruct (C193_freed_once _ _ _ E) as (h' & C & V & L). { rewrite St. apply seq_NoDup. }
  exists h, v, h'. split; auto. rewrite V, St, seq_length. split; auto. split; [rewrite <- St, <- V; auto|].
  destruct (live h') as [|p l]; auto. destruct (proj1 (L p) (or_introl eq_refl)) as [B Q]. rewrite Al in B. destruct Q. rewrite St. apply in_seq. lia.
Qed.
Example C193_pack_safe_ex : store_run (Heap [] 0, []) [FPack; FPack] = Ok (Heap [1; 0] 2, [0; 1]).
Proof. reflexivity. Qed.

(** a functor stored twice is deleted twice, which is undefined (the library only warns, when it was compiled with assertions) *)
Theorem C193_stored_twice (os : list fop) (h : heap) (v : list nat) :
  store_run (Heap [] 0, []) os = Ok (h, v) -> ~ NoDup (stored 0 os) -> store_close h v = UB.
Proof.
  intros E N. destruct (store_runs os (Heap [] 0) [] h v eq_refl E) as (_ & V & _ & _). cbn [app next] in V. subst v. apply close_dup; auto.
Qed.
Example C193_stored_twice_ex : store_run (Heap [] 0, []) [FPack; FStore 0] = Ok (Heap [0] 1, [0; 0]) /\ store_close (Heap [0] 1) [0; 0] = UB.
Proof. split; reflexivity. Qed.
Print Assumptions C190_messages.
Print Assumptions C190_verbose.
Print Assumptions C190_more_verbose.
Print Assumptions C190_names.
Print Assumptions C190_closing.
Print Assumptions C191_calls.
Print Assumptions C191_no_signal_lost.
Print Assumptions C191_no_evaluation_without_signal.
Print Assumptions C191_verdicts_in_order.
Print Assumptions C191_ctrl_c.
Print Assumptions C191_ctrl_c_before.
Print Assumptions C191_function.
Print Assumptions C192_unknown_level_refuted.
Print Assumptions C192_unopened_file_refuted.
Print Assumptions C192_other_stream_refuted.
Print Assumptions C192_files_closed_refuted.
Print Assumptions C192_quiet_messages_refuted.
Print Assumptions C192_two_objects_refuted.
Print Assumptions C192_construction_refuted.
Print Assumptions C192_wrapped_criterion_refuted.
Print Assumptions C192_never_stops_refuted.
Print Assumptions C192_lost_signal_refuted.
Print Assumptions C192_second_run_refuted.
Print Assumptions C193_freed_once.
Print Assumptions C193_pack_safe.
Print Assumptions C193_stored_twice.
Print Assumptions C190_verbose_later.
