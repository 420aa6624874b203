(** Proofs about CliModel.v. *)
From Coq Require Import String Bool Ascii NArith Lia Arith Permutation List.
From Verif Require Import Lib Outcome StreamModel StreamSpec StreamProofs JsonModel CliModel CliSpec.
Import ListNotations.
Open Scope char_scope.
Open Scope list_scope.

Notation eq_c := ("="%char).
Notation dash := ("-"%char).

(** *** words *)
Lemma word_first a : word a -> exists c r, a = c :: r.
Proof. intros [H _]. destruct a; [congruence|eauto]. Qed.
Lemma is_prefix_spec p l : is_prefix p l = true <-> exists r, l = p ++ r.
Proof.
  revert l. induction p as [|c p IH]; intros [|d l]; cbn; try (split; eauto; fail).
  - split; [discriminate|]. intros (r & E). discriminate.
  - destruct (ascii_dec c d) as [->|N].
    + rewrite IH. split; intros (r & E); exists r; congruence.
    + split; [discriminate|]. intros (r & E). congruence.
Qed.
Lemma find_spec p l : (exists n, find p l = Some n) <-> exists a b, l = a ++ p ++ b.
Proof.
  induction l as [|c l IH].
  - cbn. destruct (is_prefix p []) eqn:E.
    + apply is_prefix_spec in E as (r & E). split; intros _; eauto. exists [], r. auto.
    + split; [intros (n & H); discriminate|]. intros (a & b & H). symmetry in H. apply app_eq_nil in H as [_ H].
      exfalso. apply app_eq_nil in H as [-> _]. cbn in E. discriminate.
  - cbn [find]. destruct (is_prefix p (c :: l)) eqn:E.
    + apply is_prefix_spec in E as (r & E). split; intros _; eauto. exists [], r. auto.
    + split.
      * intros (n & H). destruct (find p l) as [k|] eqn:F; [|discriminate].
        destruct (proj1 IH (ex_intro _ k eq_refl)) as (a & b & ->). exists (c :: a), b. auto.
      * intros (a & b & H). destruct a as [|d a].
        { cbn in H. assert (is_prefix p (c :: l) = true) by (apply is_prefix_spec; eauto). congruence. }
        injection H as -> ->. destruct (proj2 IH) as (n & ->); [eauto|]. cbn. eauto.
Qed.
Lemma processing_section w pr : section_word w ->
  (parser_word w -> processing_after w pr = true) /\ (~ parser_word w -> processing_after w pr = false).
Proof.
  intros Hs. unfold processing_after. rewrite (proj2 (is_prefix_spec tag_so w) Hs). split; intros H.
  - destruct (proj2 (find_spec tag_parser w) H) as (n & ->). auto.
  - destruct (find tag_parser w) eqn:E; auto. exfalso. apply H. apply (find_spec tag_parser w). eauto.
Qed.
Lemma processing_other w pr : ~ section_word w -> processing_after w pr = pr.
Proof.
  intros Hs. unfold processing_after. destruct (is_prefix tag_so w) eqn:E; auto.
  exfalso. apply Hs. apply is_prefix_spec in E. auto.
Qed.
Lemma section_head w : section_word w -> exists r, w = "\" :: r.
Proof. intros (r & ->). cbn. eauto. Qed.

(** *** one argument *)
Definition put (m : maps) (a : text) : maps := if starts_with dash a then put_option a m else m.
Definition puts (args : list text) (m : maps) : maps := fold_left put args m.

Lemma split_equal_spec l n v : split_equal l = (n, v) <->
  ~ In eq_c n /\ (l = n ++ eq_c :: v \/ (l = n /\ v = [])).
Proof.
  revert n v. induction l as [|c l IH]; intros n v; cbn.
  - split.
    + intros E. injection E as <- <-. auto.
    + intros (Hn & [E|[<- ->]]); auto. destruct n; discriminate.
  - destruct (ascii_dec c eq_c) as [->|N].
    + split.
      * intros E. injection E as <- <-. auto.
      * intros (Hn & [E|[<- ->]]).
        { destruct n as [|d n]; cbn in E; [congruence|]. injection E as E1 _. exfalso. apply Hn. left. congruence. }
        { exfalso. apply Hn. left. auto. }
    + destruct (split_equal l) as [n0 v0] eqn:E0. split.
      * intros E. injection E as <- <-. destruct (proj1 (IH n0 v0) eq_refl) as (Hn & H). split.
        { intros [?|?]; auto. }
        { destruct H as [->|[-> ->]]; auto. }
      * intros (Hn & H). destruct n as [|d n].
        { destruct H as [H|[H _]]; [cbn in H; congruence|discriminate]. }
        assert (c = d /\ (l = n ++ eq_c :: v \/ (l = n /\ v = []))) as [<- H'].
        { destruct H as [H|[H ->]]; injection H as -> ->; auto. }
        assert (~ In eq_c n) as Hn' by (intros F; apply Hn; right; auto).
        pose proof (proj2 (IH n v) (conj Hn' H')) as E. injection E as -> ->. auto.
Qed.

Lemma eqb_eq a b : text_eqb a b = true -> a = b.
Proof. intros H. destruct (text_eqb_spec a b); congruence. Qed.
Lemma text_eqb_neq a b : a <> b -> text_eqb a b = false.
Proof. intros N. destruct (text_eqb a b) eqn:E; auto. apply eqb_eq in E. congruence. Qed.
Lemma long_find_cons m n v k : long_find (Maps ((n, v) :: longs m) (shorts m)) k =
  if text_eqb n k then Some v else long_find m k.
Proof. unfold long_find. cbn. destruct (text_eqb n k); auto. Qed.
Lemma short_find_cons m c v k : short_find (Maps (longs m) ((c, v) :: shorts m)) k =
  if ascii_dec c k then Some v else short_find m k.
Proof. unfold short_find. cbn. destruct (ascii_dec c k); auto. Qed.

(** what an argument gives *)
Inductive arg_case : text -> Prop :=
| ac_long n v a : gives_long n v a -> (forall m, put m a = Maps ((n, v) :: longs m) (shorts m)) ->
    (forall n' v', gives_long n' v' a -> n' = n /\ v' = v) -> (forall c w, ~ gives_short c w a) -> arg_case a
| ac_short c v a : gives_short c v a -> (forall m, put m a = Maps (longs m) ((c, v) :: shorts m)) ->
    (forall c' v', gives_short c' v' a -> c' = c /\ v' = v) -> (forall n w, ~ gives_long n w a) -> arg_case a
| ac_none a : (forall m, put m a = m) -> (forall c w, ~ gives_short c w a) -> (forall n w, ~ gives_long n w a) -> arg_case a.
Lemma gives_long_shape n v a : gives_long n v a -> exists r, a = dash :: dash :: r /\ split_equal r = (n, v).
Proof.
  intros (Hn & [E|[E ->]]); subst; eexists; split; try reflexivity; apply split_equal_spec; auto.
Qed.
Lemma gives_short_shape c v a : gives_short c v a -> exists r, a = dash :: c :: r /\ c <> dash.
Proof. intros (Hc & [->|[-> _]]); eauto. Qed.
Lemma no_give a : (forall c r, a <> dash :: c :: r) -> (forall c w, ~ gives_short c w a) /\ (forall n w, ~ gives_long n w a).
Proof.
  intros H. split; intros x w G.
  - apply gives_short_shape in G as (r & -> & _). eapply H; eauto.
  - apply gives_long_shape in G as (r & -> & _). eapply H; eauto.
Qed.
Lemma arg_cases a : arg_case a.
Proof.
  destruct a as [|c0 a].
  { apply ac_none; auto; apply no_give; intros; discriminate. }
  destruct (ascii_dec c0 dash) as [->|N].
  2:{ assert (forall c r, c0 :: a <> dash :: c :: r) as H by congruence. destruct (no_give _ H).
      apply ac_none; auto. intros m. unfold put. cbn. destruct (ascii_dec c0 dash); congruence. }
  destruct a as [|c a].
  { assert (forall c r, [dash] <> dash :: c :: r) as H by congruence. destruct (no_give _ H).
    apply ac_none; auto. }
  destruct (ascii_dec c dash) as [->|Nc].
  - destruct (split_equal a) as [n v] eqn:E. apply (ac_long n v).
    + apply split_equal_spec in E as (Hn & [->|[-> ->]]); split; auto.
    + intros m. cbn. rewrite E. auto.
    + intros n' v' G. apply gives_long_shape in G as (r & Er & E'). injection Er as ->.
      rewrite E in E'. injection E' as -> ->. auto.
    + intros d w G. apply gives_short_shape in G as (r & Er & Hd). injection Er as <- _. congruence.
  - assert (forall n w, ~ gives_long n w (dash :: c :: a)) as NL.
    { intros n w G. apply gives_long_shape in G as (r & Er & _). injection Er as -> _. congruence. }
    assert ((exists v, a = eq_c :: v) \/ forall r, a <> eq_c :: r) as [[v ->]|Ha].
    { destruct a as [|d a]; [right; congruence|]. destruct (ascii_dec d eq_c) as [->|Nd]; [left; eauto|right; congruence]. }
    + apply (ac_short c v); auto.
      * split; auto.
      * intros m. cbn. destruct (ascii_dec c dash); [congruence|]. auto.
      * intros c' v' (Hc & [E|[E Hv]]); injection E as -> E; subst; auto. exfalso. eapply Hv; eauto.
    + apply (ac_short c a); auto.
      * split; auto.
      * intros m. cbn. destruct (ascii_dec c dash); [congruence|]. destruct a as [|d a]; auto.
        destruct (ascii_dec d eq_c) as [->|Nd]; auto. exfalso. eapply Ha; eauto.
      * intros c' v' (Hc & [E|[E Hv]]); injection E as -> E; subst; auto. exfalso. eapply Ha; eauto.
Qed.

(** *** the last one wins *)
Lemma last_given_snoc_yes (g : text -> text -> Prop) args a v : g v a -> last_given g (args ++ [a]) v.
Proof. intros H. exists args, a, []. repeat split; auto. Qed.
Lemma last_given_snoc_no (g : text -> text -> Prop) args a v : (forall w, ~ g w a) -> last_given g (args ++ [a]) v <-> last_given g args v.
Proof.
  intros H. split.
  - intros (b & x & r & E & G & L). destruct (exists_last (l := r)) as (r' & y & ->).
    { intros ->. apply app_inj_tail in E as [_ <-]. eapply H; eauto. }
    rewrite app_comm_cons, app_assoc in E. apply app_inj_tail in E as [-> ->].
    exists b, x, r'. repeat split; auto. intros z w Hz. apply L. apply in_or_app. auto.
  - intros (b & x & r & -> & G & L). exists b, x, (r ++ [a]). rewrite <- app_assoc. repeat split; auto.
    intros z w Hz. apply in_app_or in Hz as [Hz|[<-|[]]]; auto.
Qed.
Lemma never_snoc (g : text -> text -> Prop) args a : never_given g (args ++ [a]) <-> never_given g args /\ forall w, ~ g w a.
Proof.
  unfold never_given. split.
  - intros H. split; intros; apply H; apply in_or_app; cbn; auto.
  - intros [H1 H2] x v Hx. apply in_app_or in Hx as [Hx|[<-|[]]]; auto.
Qed.
Lemma puts_snoc args a m : puts (args ++ [a]) m = put (puts args m) a.
Proof. unfold puts. rewrite fold_left_app. auto. Qed.
Lemma puts_app a b m : puts (a ++ b) m = puts b (puts a m).
Proof. apply fold_left_app. Qed.

Lemma long_puts args n :
  (exists v, last_given (gives_long n) args v /\ forall m, long_find (puts args m) n = Some v) \/
  (never_given (gives_long n) args /\ forall m, long_find (puts args m) n = long_find m n).
Proof.
  induction args as [|a args IH] using rev_ind; [right; split; [intros a v []|auto]|].
  destruct (arg_cases a) as [n0 v0 a G P U _|c v0 a _ P _ NL|a P _ NL].
  - destruct (text_eqb n0 n) eqn:E.
    + apply eqb_eq in E as ->. left. exists v0. split; [apply last_given_snoc_yes; auto|].
      intros m. rewrite puts_snoc, P, long_find_cons, text_eqb_refl. auto.
    + assert (forall w, ~ gives_long n w a) as Na.
      { intros w Gw. apply U in Gw as [<- _]. rewrite text_eqb_refl in E. discriminate. }
      destruct IH as [(v & L & F)|[N F]]; [left; exists v|right]; split; try (intros m; rewrite puts_snoc, P, long_find_cons, E; auto).
      * apply last_given_snoc_no; auto.
      * apply never_snoc; auto.
  - destruct IH as [(v & L & F)|[N F]]; [left; exists v|right]; split; try (intros m; rewrite puts_snoc, P; apply F).
    + apply last_given_snoc_no; auto.
    + apply never_snoc; auto.
  - destruct IH as [(v & L & F)|[N F]]; [left; exists v|right]; split; try (intros m; rewrite puts_snoc, P; apply F).
    + apply last_given_snoc_no; auto.
    + apply never_snoc; auto.
Qed.
Lemma short_puts args c :
  (exists v, last_given (gives_short c) args v /\ forall m, short_find (puts args m) c = Some v) \/
  (never_given (gives_short c) args /\ forall m, short_find (puts args m) c = short_find m c).
Proof.
  induction args as [|a args IH] using rev_ind; [right; split; [intros a v []|auto]|].
  destruct (arg_cases a) as [n0 v0 a _ P _ NS|c0 v0 a G P U _|a P NS _].
  - destruct IH as [(v & L & F)|[N F]]; [left; exists v|right]; split; try (intros m; rewrite puts_snoc, P; apply F).
    + apply last_given_snoc_no; auto.
    + apply never_snoc; auto.
  - destruct (ascii_dec c0 c) as [->|E].
    + left. exists v0. split; [apply last_given_snoc_yes; auto|].
      intros m. rewrite puts_snoc, P, short_find_cons. destruct (ascii_dec c c); [auto|congruence].
    + assert (forall w, ~ gives_short c w a) as Na.
      { intros w Gw. apply U in Gw as [<- _]. congruence. }
      assert (forall m, short_find (put m a) c = short_find m c) as Hs.
      { intros m. rewrite P, short_find_cons. destruct (ascii_dec c0 c); [congruence|auto]. }
      destruct IH as [(v & L & F)|[N F]]; [left; exists v|right]; split; try (intros m; rewrite puts_snoc, Hs; auto).
      * apply last_given_snoc_no; auto.
      * apply never_snoc; auto.
  - destruct IH as [(v & L & F)|[N F]]; [left; exists v|right]; split; try (intros m; rewrite puts_snoc, P; apply F).
    + apply last_given_snoc_no; auto.
    + apply never_snoc; auto.
Qed.

Definition empty_maps : maps := Maps [] [].
Lemma last_given_unique (g : text -> text -> Prop) args v w : (forall a v w, g v a -> g w a -> v = w) ->
  last_given g args v -> last_given g args w -> v = w.
Proof.
  intros U. induction args as [|a args IH] using rev_ind.
  - intros (b & x & r & E & _). destruct b; discriminate.
  - intros H1 H2.
    assert (forall v, last_given g (args ++ [a]) v -> g v a \/ ((forall w, ~ g w a) /\ last_given g args v)) as K.
    { clear - U. intros v (b & x & r & E & G & L). destruct r as [|y r] using rev_ind.
      - apply app_inj_tail in E as [_ <-]. auto.
      - clear IHr. rewrite app_comm_cons, app_assoc in E. apply app_inj_tail in E as [-> ->]. right. split.
        + intros w. apply L. apply in_or_app. right. left. auto.
        + exists b, x, r. repeat split; auto. intros z w Hz. apply L. apply in_or_app. auto. }
    apply K in H1 as [H1|[N1 H1]]; apply K in H2 as [H2|[N2 H2]]; eauto; exfalso; eauto; [eapply N2|eapply N1]; eauto.
Qed.
Lemma gives_long_fun n a v w : gives_long n v a -> gives_long n w a -> v = w.
Proof.
  intros H1 H2. apply gives_long_shape in H1 as (r & -> & E1). apply gives_long_shape in H2 as (r2 & E & E2).
  injection E as <-. congruence.
Qed.
Lemma gives_short_fun c a v w : gives_short c v a -> gives_short c w a -> v = w.
Proof.
  intros (Hc & [H1|[H1 N1]]) (_ & [H2|[H2 N2]]); subst; injection H2; auto.
  - intros E. exfalso. eapply N2. symmetry. eauto.
  - intros E. exfalso. eapply N1. eauto.
Qed.
Lemma last_not_never (g : text -> text -> Prop) args v : last_given g args v -> never_given g args -> False.
Proof. intros (b & a & r & -> & G & _) N. eapply N; [|exact G]. apply in_or_app. right. left. auto. Qed.

Section P.
Variable T : Type.
Variable tshow : T -> text.
Variable tstore : text -> T -> T.
Notation param := (param T).
Notation parser := (parser T).

(** what get_value finds is what the arguments chose *)
Lemma get_value_chosen args (q : param) : chosen (lname T q) (sname T q) args (get_value T (puts args empty_maps) q).
Proof.
  unfold get_value.
  destruct (sname T q) as [c|] eqn:Es.
  - destruct (short_puts args c) as [(v & L & F)|[N F]].
    + rewrite F. apply (chosen_short _ _ _ c); auto.
    + rewrite F. cbn. destruct (long_puts args (lname T q)) as [(v & L & F')|[N' F']]; rewrite F'.
      * apply chosen_long; auto. intros c' E. injection E as <-. auto.
      * apply chosen_none; auto. intros c' E. injection E as <-. auto.
  - destruct (long_puts args (lname T q)) as [(v & L & F')|[N' F']]; rewrite F'.
    + apply chosen_long; auto. intros c' E. discriminate.
    + apply chosen_none; auto. intros c' E. discriminate.
Qed.
Lemma chosen_unique n s args o o' : chosen n s args o -> chosen n s args o' -> o = o'.
Proof.
  intros H1 H2. inversion H1 as [c v E L|v N L|N L]; inversion H2 as [c' v' E' L'|v' N' L'|N' L']; subst; auto.
  - assert (c' = c) by congruence. subst c'. f_equal.
    apply (last_given_unique (gives_short c) args v v'); auto. intros a x y. apply gives_short_fun.
  - exfalso. apply (last_not_never (gives_short c) args v); auto.
  - exfalso. apply (last_not_never (gives_short c) args v); auto.
  - exfalso. apply (last_not_never (gives_short c') args v'); auto.
  - f_equal. apply (last_given_unique (gives_long n) args v v'); auto. intros a x y. apply gives_long_fun.
  - exfalso. apply (last_not_never (gives_long n) args v); auto.
  - exfalso. apply (last_not_never (gives_short c') args v'); auto.
  - exfalso. apply (last_not_never (gives_long n) args v'); auto.
Qed.
Lemma get_value_is args (q : param) o : chosen (lname T q) (sname T q) args o -> get_value T (puts args empty_maps) q = o.
Proof. intros H. eapply chosen_unique; [apply get_value_chosen|auto]. Qed.

(** *** reading *)
Lemma tokens_step b w rest : blank b -> word w -> clean_end rest ->
  read_word (Stream (b ++ w ++ rest) false) = (w, Stream rest false).
Proof. intros Hb [Hw1 Hw2] Hr. apply read_word_ok; auto. Qed.
Lemma tokens_say on l args : file_says on l args -> forall f m, List.length l < f ->
  read_tokens f on (Stream l false) m = Ok (puts args m, false).
Proof.
  induction 1 as [on b Hb|b a rest args Hb Ha Hc _ IH|b c rest args Hb Hl _ IH|b c Hb Hl
    |on b w rest args Hb Hw Hs Hp Hc _ IH|on b w rest args Hb Hw Hs Hp Hc _ IH|b w rest args Hb Hw Hs Hc _ IH];
    intros f m Hf; (destruct f as [|f]; [lia|]); cbn [read_tokens].
  - assert (read_word (Stream b false) = ([], Stream [] true)) as ->; auto.
    unfold read_word. cbn. rewrite <- (app_nil_r b), skip_ws_app; auto.
  - destruct Ha as (Hw & H0 & Hn & Hd & Hs). rewrite tokens_step; auto. cbn [failed].
    rewrite processing_other; auto.
    assert (List.length rest < f) as Hf'.
    { rewrite !app_length in Hf. destruct (word_first _ Hw) as (c & r & ->). cbn in Hf. lia. }
    cbn [puts fold_left]. fold (puts args (put m a)).
    specialize (IH f (put m a) Hf'). revert IH. unfold put.
    destruct a as [|c r]; [destruct Hw; congruence|]. cbn [starts_with].
    destruct (ascii_dec c "#") as [->|N1]; [exfalso; eapply Hn; eauto|].
    destruct (ascii_dec c "-") as [->|N2]; auto.
    destruct r as [|d r]; [congruence|]. auto.
  - assert (exists cw cr, c ++ nl :: rest = cw ++ cr /\ Forall (fun x => is_space x = false) cw /\ clean_end cr /\
              exists x y, getline cr = Some (x, y, rest)) as (cw & cr & E & Hcw & Hcr & x & y & Hg).
    { clear - Hl. induction c as [|d c IH].
      - exists [], (nl :: rest). repeat split; auto. exists [], false. auto.
      - assert (~ In nl c) as Hl' by (intros F; apply Hl; right; auto). destruct (IH Hl') as (cw & cr & E & H1 & H2 & x & y & Hg).
        destruct (is_space d) eqn:Ed.
        + exists [], (d :: c ++ nl :: rest). repeat split; auto.
          assert (exists w, split_line (c ++ nl :: rest) = (w, Some rest)) as (w & Hw).
          { clear - Hl'. induction c as [|e c IH]; cbn; [eauto|].
            destruct (ascii_dec e nl) as [->|N]; [exfalso; apply Hl'; left; auto|].
            destruct IH as (w & ->); [intros F; apply Hl'; right; auto|]. eauto. }
          exists (d :: w), false. unfold getline. cbn [split_line]. destruct (ascii_dec d nl) as [->|N]; [exfalso; apply Hl; left; auto|].
          rewrite Hw. auto.
        + exists (d :: cw), cr. cbn. rewrite E. repeat split; auto. eauto. }
    assert (b ++ "#" :: c ++ "010" :: rest = b ++ ("#" :: cw) ++ cr) as E2 by (cbn; unfold nl in E; rewrite E; auto).
    rewrite E2, tokens_step; auto.
    2:{ split; [discriminate|]. constructor; auto. }
    cbn [failed]. rewrite processing_other.
    2:{ intros (r & F). discriminate. }
    cbn [chars]. rewrite Hg. apply IH. rewrite !app_length in Hf. cbn in Hf. rewrite app_length in Hf. cbn in Hf. lia.
  - assert (exists cw cr, c = cw ++ cr /\ Forall (fun x => is_space x = false) cw /\ clean_end cr) as (cw & cr & E & Hcw & Hcr).
    { clear. induction c as [|d c (cw & cr & E & H1 & H2)]; [exists [], []; repeat split; auto|].
      destruct (is_space d) eqn:Ed; [exists [], (d :: c); repeat split; auto|exists (d :: cw), cr; rewrite E; repeat split; auto]. }
    rewrite E. change ("#" :: cw ++ cr) with (("#"%char :: cw) ++ cr). rewrite tokens_step; auto.
    2:{ split; [discriminate|]. constructor; auto. }
    cbn [failed]. rewrite processing_other.
    2:{ intros (r & F). discriminate. }
    cbn [chars]. unfold getline. destruct cr as [|d cr]; auto.
    assert (split_line (d :: cr) = (d :: cr, None)) as ->.
    { assert (~ In nl (d :: cr)) as Hn. { intros F. apply Hl. rewrite E. apply in_or_app. auto. }
      clear - Hn. revert Hn. generalize (d :: cr). intros t. induction t as [|e t IH]; auto. intros Hn. cbn.
      destruct (ascii_dec e nl) as [->|N]; [exfalso; apply Hn; left; auto|].
      rewrite IH; auto. intros F. apply Hn. right. auto. }
    destruct f as [|f]; [exfalso; subst c; rewrite !app_length in Hf; cbn in Hf; rewrite app_length in Hf; cbn in Hf; lia|]. auto.
  - rewrite tokens_step; auto. cbn [failed]. destruct (processing_section w on Hs) as [E _]. rewrite (E Hp).
    destruct (section_head w Hs) as (r & ->). apply IH. rewrite !app_length in Hf. cbn in Hf. lia.
  - rewrite tokens_step; auto. cbn [failed]. destruct (processing_section w on Hs) as [_ E]. rewrite (E Hp).
    destruct (section_head w Hs) as (r & ->). apply IH. rewrite !app_length in Hf. cbn in Hf. lia.
  - rewrite tokens_step; auto. cbn [failed]. rewrite processing_other; auto.
    destruct (word_first w Hw) as (c & r & ->). apply IH. rewrite !app_length in Hf. cbn in Hf. lia.
Qed.
Lemma read_maps_say l args m : file_says true l args -> read_maps l m = Ok (puts args m, false).
Proof. intros H. apply (tokens_say _ _ _ H). lia. Qed.

Lemma join_says b argv : blank b -> Forall plain_arg argv -> file_says true (b ++ join_args argv) argv.
Proof.
  intros Hb H. revert b Hb. induction H as [|a argv Ha _ IH]; intros b Hb; cbn [join_args flat_map].
  - rewrite app_nil_r. apply fs_end; auto.
  - fold (join_args argv). rewrite <- !app_assoc. apply fs_arg; auto.
    + cbn. auto.
    + apply IH. repeat constructor.
Qed.
End P.
