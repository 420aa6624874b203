(** Proofs about the services around a run. *)
From Coq Require Import Arith ZArith String Ascii Lia List Bool.
From Verif Require Import Lib Outcome SrvModel SrvSpec.
Import ListNotations.

(** * Logger *)

Lemma named_rank s : named init_names s = rank_of s.
Proof.
  unfold rank_of, init_names, named.
  repeat match goal with |- context [string_dec ?a ?b] => destruct (string_dec a b) end;
    subst; try reflexivity.
  repeat match goal with
  | |- context [String.eqb s ?k] => destruct (String.eqb_spec s k); try contradiction; try reflexivity
  end.
Qed.

Lemma last_given_snoc {A} g (d : A) h o :
  last_given g d (h ++ [o]) =
  match g o with Some a => a | None => last_given g d h end.
Proof.
  revert d; induction h as [|x h IH]; intros d; cbn [app last_given]; auto.
Qed.

Definition agrees (l : logger) (hist : list lop) : Prop :=
  context l = last_given gives_level 0 hist /\
  selected l = last_given gives_selected 3 hist /\
  fd l = last_given gives_target 2%Z hist.

Lemma agrees_step l hist o :
  agrees l hist -> agrees (fst (logger_step l o)) (hist ++ [o]).
Proof.
  intros (A & B & C). unfold agrees; rewrite !last_given_snoc.
  destruct o as [k|a|k|s|s|w]; cbn [logger_step fst context selected fd
    gives_level gives_selected gives_target]; auto.
  - rewrite named_rank; auto.
  - destruct s; cbn [std_fd context selected fd]; auto.
Qed.

Lemma put_text_map l w :
  put_text l w = if Nat.leb (context l) (selected l)
                 then if (0 <=? fd l)%Z then map (fun c => (fd l, c)) (list_ascii_of_string w) else []
                 else [].
Proof.
  induction w as [|c w IH]; cbn [put_text list_ascii_of_string map].
  - destruct (_ <=? _); auto. destruct (0 <=? _)%Z; auto.
  - rewrite IH; unfold overflow. destruct (_ <=? _); auto. destruct (0 <=? _)%Z; auto.
Qed.

Lemma put_message l hist w : agrees l hist -> put_text l w = message hist w.
Proof.
  intros (A & B & C). rewrite put_text_map; unfold message; rewrite A, B, C.
  destruct (le_dec _ _) as [L|L].
  - rewrite (proj2 (Nat.leb_le _ _) L).
    destruct (Z_lt_dec _ 0) as [L'|L'].
    + rewrite (proj2 (Z.leb_gt _ _)); auto.
    + rewrite (proj2 (Z.leb_le _ _)); auto; lia.
  - rewrite (proj2 (Nat.leb_gt _ _)); auto; lia.
Qed.

Lemma run_outputs ops : forall l hist, agrees l hist ->
  snd (logger_run l ops) = outputs hist ops /\
  agrees (fst (logger_run l ops)) (hist ++ ops).
Proof.
  induction ops as [|o r IH]; intros l hist A; cbn [logger_run outputs].
  - rewrite app_nil_r; auto.
  - pose proof (agrees_step l hist o A) as A1.
    destruct (logger_step l o) as [l1 b1] eqn:E1; cbn [fst] in A1.
    destruct (IH l1 _ A1) as [I1 I2].
    destruct (logger_run l1 r) as [l2 b2] eqn:E2; cbn [fst snd] in *.
    split.
    + rewrite I1; f_equal. destruct o; cbn [logger_step] in E1; injection E1 as <- <-; auto.
      apply put_message; auto.
    + rewrite <- app_assoc in I2; auto.
Qed.

Lemma init_agrees : agrees logger_init [].
Proof. repeat split. Qed.

Lemma sub_refl {A} (l : list A) : sub l l.
Proof. induction l; [apply sub_nil|apply sub_keep; auto]. Qed.
Lemma sub_nil_l {A} (l : list A) : sub [] l.
Proof. induction l; constructor; auto. Qed.
Lemma sub_app {A} (a a' b b' : list A) : sub a a' -> sub b b' -> sub (a ++ b) (a' ++ b').
Proof. induction 1; intros; cbn [app]; auto; [apply sub_skip|apply sub_keep]; auto. Qed.

Definition no_select (o : lop) : Prop :=
  match o with LSelect _ | LSelectName _ => False | _ => True end.

Lemma run_more ops : forall a b c d, a <= b -> Forall no_select ops ->
  sub (snd (logger_run (Logger a c d) ops)) (snd (logger_run (Logger b c d) ops)).
Proof.
  induction ops as [|o r IH]; intros a b c d L N; cbn [logger_run].
  - constructor.
  - inversion N as [|? ? No Nr]; subst.
    assert (G : forall x y, sub x y -> forall c' d',
      sub (snd (let (l2, b2) := logger_run (Logger a c' d') r in (l2, x ++ b2)))
          (snd (let (l2, b2) := logger_run (Logger b c' d') r in (l2, y ++ b2)))).
    { intros x y S c' d'. pose proof (IH a b c' d' L Nr) as Q.
      destruct (logger_run (Logger a c' d') r), (logger_run (Logger b c' d') r); cbn [snd] in *.
      apply sub_app; auto. }
    destruct o as [k|z|k|s|s|w]; cbn [logger_step selected context fd]; try contradiction.
    + apply G; constructor.
    + apply G; constructor.
    + destruct (std_fd s); apply G; constructor.
    + apply G. rewrite !put_text_map; cbn [context selected fd].
      destruct (Nat.leb_spec c a).
      * rewrite (proj2 (Nat.leb_le c b)) by lia. apply sub_refl.
      * apply sub_nil_l.
Qed.

(** * eoSignal *)

Section Signals.
Context (sigof : nat -> nat) (verdict : nat -> nat -> bool).
Notation step := (sig_step sigof verdict).
Notation run := (sig_run sigof verdict).

Lemma fset_eq {A} (f : nat -> A) k a : fset f k a k = a.
Proof. unfold fset; rewrite Nat.eqb_refl; auto. Qed.
Lemma fset_neq {A} (f : nat -> A) k a x : x <> k -> fset f k a x = f x.
Proof. intros; unfold fset; destruct (Nat.eqb_spec x k); congruence. Qed.

(** The flag of a signal, read off the trace. *)
Fixpoint flag_after (s : nat) (b : bool) (t : list seen) : bool :=
  match t with
  | [] => b
  | x :: r =>
      flag_after s
        (match x with
         | Raised s' => if Nat.eqb s' s then true else b
         | Cleared i | Made i => if Nat.eqb (sigof i) s then false else b
         | _ => b
         end) r
  end.

Lemma flag_app s t u : forall b, flag_after s b (t ++ u) = flag_after s (flag_after s b t) u.
Proof. induction t as [|x t IH]; intros b; cbn [app flag_after]; auto. Qed.

Lemma step_flag w e w' t s :
  step w e = Some (w', t) -> flags w' s = flag_after s (flags w s) t.
Proof.
  destruct e as [s'|i|i|]; cbn [sig_step].
  - destruct (handled w s'); [|discriminate]. intros E; injection E as <- <-.
    cbn [flags flag_after]. unfold fset. rewrite Nat.eqb_sym. reflexivity.
  - destruct (at_ w); try discriminate. intros E; injection E as <- <-; reflexivity.
  - destruct (at_ w); try discriminate. intros E; injection E as <- <-.
    cbn [flags flag_after]. unfold fset. rewrite Nat.eqb_sym. reflexivity.
  - destruct (at_ w); try discriminate.
    + destruct (flags w (sigof i)); intros E; injection E as <- <-; reflexivity.
    + intros E; injection E as <- <-. cbn [flags flag_after].
      unfold fset. rewrite Nat.eqb_sym. reflexivity.
    + intros E; injection E as <- <-. reflexivity.
Qed.

Lemma run_flag es : forall w w' t s,
  run w es = Some (w', t) -> flags w' s = flag_after s (flags w s) t.
Proof.
  induction es as [|e r IH]; intros w w' t s; cbn [sig_run].
  - intros E; injection E as <- <-; auto.
  - destruct (step w e) as [[w1 t1]|] eqn:E1; [|discriminate].
    destruct (run w1 r) as [[w2 t2]|] eqn:E2; [|discriminate].
    intros E; injection E as <- <-. rewrite flag_app, <- (step_flag _ _ _ _ _ E1). eauto.
Qed.

Lemma flag_no_take s t : (forall x, In x t -> ~ takes sigof s x) -> flag_after s true t = true.
Proof.
  induction t as [|x t IH]; intros N; cbn [flag_after]; auto.
  transitivity (flag_after s true t); [f_equal|apply IH; intros; apply N; right; auto].
  specialize (N x (or_introl eq_refl)).
  destruct x; auto; cbn [takes] in N.
  - destruct (_ =? _); auto.
  - destruct (Nat.eqb_spec (sigof i) s); tauto.
  - destruct (Nat.eqb_spec (sigof i) s); tauto.
Qed.

Lemma flag_waiting s t : flag_after s false t = true <-> waiting sigof s t.
Proof.
  split.
  - induction t as [|x t IH] using rev_ind; cbn [flag_after]; [discriminate|].
    rewrite flag_app; cbn [flag_after].
    assert (K : flag_after s false t = true -> ~ takes sigof s x ->
                waiting sigof s (t ++ [x])).
    { intros F N. destruct (IH F) as (t1 & t2 & -> & Q).
      exists t1, (t2 ++ [x]). split; [rewrite <- app_assoc; auto|].
      intros y Y. apply in_app_iff in Y as [Y|[<-|[]]]; auto. }
    destruct x as [s'|i|i|i|i|i b|i b]; intros F; try (apply K; auto; fail).
    + destruct (Nat.eqb_spec s' s); [subst|apply K; auto].
      exists t, []. split; auto.
    + destruct (Nat.eqb_spec (sigof i) s); [discriminate|apply K; auto].
    + destruct (Nat.eqb_spec (sigof i) s); [discriminate|apply K; auto].
  - intros (t1 & t2 & -> & N). rewrite flag_app; cbn [flag_after].
    rewrite Nat.eqb_refl. apply flag_no_take; auto.
Qed.

(** Where a test shows in a trace, the run was about to make it. *)
Lemma run_split es : forall w w' t1 x t2,
  run w es = Some (w', t1 ++ x :: t2) ->
  (match x with Tested _ | Called _ | Cleared _ | Checked _ _ => True | _ => False end) ->
  exists es1 e w1 es2, es = es1 ++ e :: es2 /\ run w es1 = Some (w1, t1) /\
    run w1 (e :: es2) = Some (w', x :: t2).
Proof.
  induction es as [|e r IH]; intros w w' t1 x t2 E X; cbn [sig_run] in E.
  - injection E as _ E. destruct t1; discriminate.
  - destruct (step w e) as [[w1 u1]|] eqn:E1; [|discriminate].
    destruct (run w1 r) as [[w2 u2]|] eqn:E2; [|discriminate].
    injection E as -> E.
    assert (H : (exists v, t1 = u1 ++ v /\ u2 = v ++ x :: t2) \/
                (t1 = [] /\ exists v, u1 = x :: v)).
    { destruct e as [s'|i|i|]; cbn [sig_step] in E1.
      1-3: (destruct (handled w s') || destruct (at_ w)); try discriminate;
           injection E1 as _ <-; cbn [app] in E;
           destruct t1 as [|y t1]; cbn [app] in E; injection E as <- E;
           [right; split; [auto|eexists; auto]|left; eexists; split; [reflexivity|auto]].
      destruct (at_ w); try discriminate.
      - destruct (flags w (sigof i)); injection E1 as _ <-; cbn [app] in E.
        + destruct t1 as [|y t1]; cbn [app] in E; injection E as <- E;
           [right; split; [auto|eexists; auto]|left; eexists; split; [reflexivity|auto]].
        + destruct t1 as [|y t1]; cbn [app] in E; injection E as <- E;
           [right; split; [auto|eexists; auto]|].
          destruct t1 as [|z t1]; cbn [app] in E; injection E as <- E;
           [destruct X|left; eexists; split; [reflexivity|auto]].
      - injection E1 as _ <-; cbn [app] in E.
        destruct t1 as [|y t1]; cbn [app] in E; injection E as <- E;
           [right; split; [auto|eexists; auto]|left; eexists; split; [reflexivity|auto]].
      - injection E1 as _ <-; cbn [app] in E.
        destruct t1 as [|y t1]; cbn [app] in E; injection E as <- E;
           [right; split; [auto|eexists; auto]|].
        destruct t1 as [|z t1]; cbn [app] in E; injection E as <- E;
           [destruct X|left; eexists; split; [reflexivity|auto]]. }
    destruct H as [(v & -> & ->)|(-> & v & ->)].
    + destruct (IH w1 w' v x t2 E2 X) as (es1 & e' & w3 & es2 & -> & R1 & R2).
      exists (e :: es1), e', w3, es2. split; [reflexivity|]. split; auto.
      cbn [sig_run]. rewrite E1, R1. reflexivity.
    + exists [], e, w, r. split; [reflexivity|]. split; [reflexivity|].
      cbn [sig_run]. rewrite E1, E2, E. reflexivity.
Qed.

Lemma raises_cons s t : only_raises t -> only_raises (Raised s :: t).
Proof. intros R x [<-|X]; eauto. Qed.
Lemma raises_nil : only_raises [].
Proof. intros x []. Qed.

(** From the middle of a call that serves a signal. *)
Lemma run_check i es : forall w w' t,
  at_ w = AtCheck i -> run w es = Some (w', t) ->
  (only_raises t /\ at_ w' = AtCheck i) \/
  (exists u b v, t = u ++ Checked i b :: Returned i b :: v /\ only_raises u).
Proof.
  induction es as [|e r IH]; intros w w' t A; cbn [sig_run].
  - intros E; injection E as <- <-. left; split; auto using raises_nil.
  - destruct e as [s|j|j|]; cbn [sig_step]; rewrite ?A.
    + destruct (handled w s); [|discriminate].
      match goal with |- context [run ?x r] => destruct (run x r) as [[w2 t2]|] eqn:E2; [|discriminate];
        destruct (IH x w2 t2 eq_refl E2) as [[R Q]|(u & b & v & -> & R)] end;
      intros E; injection E as <- <-.
      * left; split; auto. apply raises_cons; auto.
      * right. exists (Raised s :: u), b, v. split; auto. apply raises_cons; auto.
    + discriminate.
    + discriminate.
    + match goal with |- context [run ?x r] => destruct (run x r) as [[w2 t2]|] eqn:E2; [|discriminate] end.
      intros E; injection E as <- <-. right. exists [], (verdict i (checks w i)), t2.
      split; auto using raises_nil.
Qed.

Lemma run_clear i es : forall w w' t,
  at_ w = AtClear i -> run w es = Some (w', t) ->
  serving i t /\ (at_ w' = Idle -> exists b, In (Cleared i) t /\ In (Checked i b) t).
Proof.
  induction es as [|e r IH]; intros w w' t A; cbn [sig_run].
  - intros E; injection E as <- <-. split; [apply sv_before, raises_nil|]. rewrite A; discriminate.
  - destruct e as [s|j|j|]; cbn [sig_step]; rewrite ?A.
    + destruct (handled w s); [|discriminate].
      match goal with |- context [run ?x r] => destruct (run x r) as [[w2 t2]|] eqn:E2; [|discriminate];
        destruct (IH x w2 t2 eq_refl E2) as [S I] end;
      intros E; injection E as <- <-. split.
      * cbn [app]. inversion S as [u R|u v R R'|u v b z R R']; subst.
        -- apply sv_before, raises_cons; auto.
        -- apply (sv_between i (Raised s :: u) v); auto. apply raises_cons; auto.
        -- apply (sv_done i (Raised s :: u) v b z); auto. apply raises_cons; auto.
      * intros D. destruct (I D) as (b & I1 & I2). exists b; split; right; auto.
    + discriminate.
    + discriminate.
    + match goal with |- context [run ?x r] => destruct (run x r) as [[w2 t2]|] eqn:E2; [|discriminate];
        destruct (run_check i r x w2 t2 eq_refl E2) as [[R Q]|(u & b & v & -> & R)] end;
      intros E; injection E as <- <-.
      * split; [apply (sv_between i [] t2); auto using raises_nil|]. rewrite Q; discriminate.
      * split; [apply (sv_done i [] u b v); auto using raises_nil|].
        intros _; exists b. split; [left; auto|]. right. apply in_app_iff; right; left; auto.
Qed.

Lemma run_test i es : forall w w' t,
  run w es = Some (w', Tested i :: t) ->
  (flags w (sigof i) = true -> serving i t /\ (at_ w' = Idle -> exists b, In (Checked i b) t)) /\
  (flags w (sigof i) = false -> exists u, t = Returned i true :: u).
Proof.
  intros w w' t E. destruct es as [|e r]; cbn [sig_run] in E; [discriminate|].
  destruct (step w e) as [[w1 t1]|] eqn:E1; [|discriminate].
  destruct (run w1 r) as [[w2 t2]|] eqn:E2; [|discriminate].
  injection E as <- E. destruct e as [s|j|j|]; cbn [sig_step] in E1.
  - destruct (handled w s); [|discriminate]. injection E1 as _ <-; discriminate.
  - destruct (at_ w); try discriminate; injection E1 as _ <-; discriminate.
  - destruct (at_ w); try discriminate; injection E1 as _ <-; discriminate.
  - destruct (at_ w) eqn:A; try discriminate; [|injection E1 as _ <-; discriminate
      |injection E1 as _ <-; discriminate].
    destruct (flags w (sigof i0)) eqn:F; injection E1 as <- <-; cbn [app] in E; injection E as -> <-.
    + rewrite F. split; [|discriminate]. intros _.
      destruct (run_clear i r _ _ _ (eq_refl : at_ (World (flags w) (handled w) (AtClear i) (checks w)) = AtClear i) E2) as [S I].
      split; auto. intros D; destruct (I D) as (b & _ & J); eauto.
    + rewrite F. split; [discriminate|]. intros _; eauto.
Qed.

(** A test follows the beginning of a call. *)
Lemma run_called i es : forall w w' t,
  at_ w = AtTest i -> run w es = Some (w', t) -> at_ w' = Idle ->
  exists u v, t = u ++ Tested i :: v /\ only_raises u.
Proof.
  induction es as [|e r IH]; intros w w' t A; cbn [sig_run].
  - intros E; injection E as <- <-. rewrite A; discriminate.
  - destruct e as [s|j|j|]; cbn [sig_step]; rewrite ?A; try discriminate.
    + destruct (handled w s); [|discriminate].
      match goal with |- context [run ?x r] => destruct (run x r) as [[w2 t2]|] eqn:E2; [|discriminate] end.
      intros E; injection E as <- <-. intros D.
      destruct (IH (World (fset (flags w) s true) (handled w) (AtTest i) (checks w)) _ _ eq_refl E2 D) as (u & v & -> & R).
      exists (Raised s :: u), v. split; auto. apply raises_cons; auto.
    + destruct (flags w (sigof i));
        match goal with |- context [run ?x r] => destruct (run x r) as [[w2 t2]|] eqn:E2; [|discriminate] end;
        intros E; injection E as <- <-; intros D.
      * exists [], t2. split; auto using raises_nil.
      * exists [], (Returned i true :: t2). split; auto using raises_nil.
Qed.
End Signals.
