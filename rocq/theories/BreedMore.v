From Coq Require Import List Arith Lia Bool QArith.
From Verif Require Import Lib Outcome PopModel BreedModel BreedSpec BreedProofs.
Import ListNotations.
Close Scope Q_scope.
Open Scope nat_scope.

Section Breed.
Context {G F W : Type}.
Notation I := (indiv G F).
Notation genop := (@genop G F W).
Notation populator := (@populator G F).

Section Ops.
Variable source : list I.
Variable select : W -> res (I * W).
Variable flip : Q -> W -> res (bool * W).
Variable wheel : list Q -> W -> res (nat * W).
Notation apply := (apply source select flip wheel).
Notation seq_loop := (seq_loop flip).
Notation deref := (deref select).

Lemma deref_end d w p w' : deref (Pop d (length d)) w = Ok (p, w') ->
  exists x, select w = Ok (x, w') /\ p = Pop (d ++ [x]) (length d).
Proof.
  unfold BreedModel.deref, at_end. cbn [dest cur]. rewrite Nat.eqb_refl. intros H.
  apply rbind_ok in H as ([x w1] & E & H). inversion H; subst. eauto.
Qed.
Lemma deref_mid (a b : list I) x w : deref (Pop (a ++ x :: b) (length a)) w = Ok (Pop (a ++ x :: b) (length a), w).
Proof.
  unfold BreedModel.deref, at_end. cbn [dest cur]. rewrite app_length. cbn [length].
  destruct (Nat.eqb_spec (length a) (length a + S (length b))); [lia|auto].
Qed.
Lemma current_mid (a b : list I) x : current (Pop (a ++ x :: b) (length a)) = Ok x.
Proof. unfold current. cbn [dest cur]. rewrite nth_error_app2, Nat.sub_diag by lia. reflexivity. Qed.
Lemma set_mid (a b : list I) x y : set (a ++ x :: b) (length a) y = a ++ y :: b.
Proof.
  apply nth_error_ext. intros i. rewrite nth_error_set. rewrite app_length. cbn [length].
  destruct (Nat.eqb_spec i (length a)) as [->|Hi]; cbn [andb].
  - destruct (Nat.ltb_spec (length a) (length a + S (length b))); [|lia].
    rewrite nth_error_app2, Nat.sub_diag by lia. reflexivity.
  - destruct (Nat.lt_ge_cases i (length a)).
    + rewrite !nth_error_app1 by lia. auto.
    + rewrite !nth_error_app2 by lia. destruct (i - length a) eqn:E; [lia|]. reflexivity.
Qed.
Lemma store_mid (a b : list I) x y c : store (Pop (a ++ x :: b) c) (length a) y = Ok (Pop (a ++ y :: b) c).
Proof.
  unfold store. cbn [dest cur]. rewrite upd_set by (rewrite app_length; simpl; lia). cbn [of_opt rbind]. rewrite set_mid. auto.
Qed.

(** a wrapped operator starting at the end *)
Definition added (op : genop) (a g : list I) (q : populator) : Prop :=
  dest q = a ++ g /\ g <> [] /\ S (cur q) = length (dest q) /\ Forall (produced op source) g.
Hypothesis Hsel : selects_from source select.
Lemma basic_at_end op a w q w' : basic op -> apply op (Pop a (length a)) w = Ok (q, w') ->
  exists g, added op a g q /\ match op with QuadGen _ => length g = 2 | _ => length g = 1 end.
Proof.
  intros Hb H. destruct op as [f|f|f s|f|l|l]; try contradiction; cbn [BreedModel.apply] in H.
  - apply rbind_ok in H as ([p1 w1] & E1 & H). apply deref_end in E1 as (x & Ex & ->).
    rewrite current_mid in H. cbn [rbind] in H. apply rbind_ok in H as ([[x' ch] w2] & E3 & H).
    cbn [cur] in H. rewrite store_mid in H. cbn [rbind] in H. inversion H; subst.
    exists [touch ch x']. unfold added. cbn [dest cur]. rewrite app_length. cbn [length]. repeat split; try lia; try discriminate.
    constructor; auto. exists x. split; [eapply Hsel; eauto|]. exists w1, x', ch, w'. split; auto.
  - apply rbind_ok in H as ([p1 w1] & E1 & H). apply deref_end in E1 as (x & Ex & ->).
    apply rbind_ok in H as ([y w2] & E2 & H).
    rewrite current_mid in H. cbn [rbind] in H. apply rbind_ok in H as ([[x' ch] w3] & E3 & H).
    cbn [cur] in H. rewrite store_mid in H. cbn [rbind] in H. inversion H; subst.
    exists [touch ch x']. unfold added. cbn [dest cur]. rewrite app_length. cbn [length]. repeat split; try lia; try discriminate.
    constructor; auto. exists x. split; [eapply Hsel; eauto|]. exists y, w2, x', ch, w'. split; [eapply Hsel; eauto|]. split; auto.
  - apply rbind_ok in H as ([p1 w1] & E1 & H). apply deref_end in E1 as (x & Ex & ->).
    apply rbind_ok in H as ([y w2] & E2 & H).
    rewrite current_mid in H. cbn [rbind] in H. apply rbind_ok in H as ([[x' ch] w3] & E3 & H).
    cbn [cur] in H. rewrite store_mid in H. cbn [rbind] in H. inversion H; subst.
    exists [touch ch x']. unfold added. cbn [dest cur]. rewrite app_length. cbn [length]. repeat split; try lia; try discriminate.
    constructor; auto. exists x. split; [eapply Hsel; eauto|]. exists y, w2, x', ch, w'. split; [eauto|]. split; auto.
  - apply rbind_ok in H as ([p1 w1] & E1 & H). apply deref_end in E1 as (x & Ex & ->).
    assert (Ei : incr (Pop (a ++ [x]) (length a)) = Pop (a ++ [x]) (length (a ++ [x]))).
    { unfold incr, at_end. cbn [dest cur]. rewrite app_length. cbn [length].
      destruct (Nat.eqb_spec (length a) (length a + 1)); [lia|]. f_equal. lia. }
    rewrite Ei in H. apply rbind_ok in H as ([p2 w2] & E2 & H). apply deref_end in E2 as (y & Ey & ->).
    cbn [dest cur] in H.
    assert (N1 : nth_error ((a ++ [x]) ++ [y]) (length a) = Some x).
    { rewrite <- app_assoc. rewrite nth_error_app2, Nat.sub_diag by lia. reflexivity. }
    assert (N2 : nth_error ((a ++ [x]) ++ [y]) (length (a ++ [x])) = Some y).
    { rewrite nth_error_app2, Nat.sub_diag by lia. reflexivity. }
    rewrite N1, N2 in H. cbn [of_opt rbind] in H. apply rbind_ok in H as ([[[x' y'] ch] w3] & E3 & H).
    replace ((a ++ [x]) ++ [y]) with (a ++ x :: [y]) in H by (rewrite <- app_assoc; auto).
    rewrite store_mid in H. cbn [rbind] in H.
    replace (a ++ touch ch x' :: [y]) with ((a ++ [touch ch x']) ++ y :: []) in H by (rewrite <- app_assoc; auto).
    replace (length (a ++ [x])) with (length (a ++ [touch ch x'])) in H by (rewrite !app_length; auto).
    rewrite store_mid in H. cbn [rbind] in H. inversion H; subst.
    exists [touch ch x'; touch ch y']. unfold added. cbn [dest cur]. rewrite !app_length. cbn [length].
    rewrite <- app_assoc. split; [|reflexivity]. split; [reflexivity|]. split; [discriminate|]. split; [lia|].
    assert (Hq : quad_result f x y (touch ch x') (touch ch y')) by (exists w2, x', y', ch, w'; auto).
    constructor; [|constructor; auto].
    + exists x, y, (touch ch x'), (touch ch y'). repeat split; auto; eapply Hsel; eauto.
    + exists x, y, (touch ch x'), (touch ch y'). repeat split; auto; eapply Hsel; eauto.
Qed.
Lemma incr_added op a g q : added op a g q -> incr q = Pop (a ++ g) (length (a ++ g)).
Proof.
  intros (D & Hne & C & _). unfold incr, at_end. destruct (Nat.eqb_spec (cur q) (length (dest q))); [lia|]. rewrite C, D. auto.
Qed.
Lemma breed_loop_produced op target : basic op -> forall fuel a w q w', Forall (produced op source) a ->
  breed_loop source select flip wheel fuel op target (Pop a (length a)) w = Ok (q, w') -> Forall (produced op source) (dest q).
Proof.
  intros Hb. induction fuel as [|fuel IH]; intros a w q w' Ha H; cbn [breed_loop] in H; [discriminate|]. cbn [dest] in H.
  destruct (length a <? target).
  - apply rbind_ok in H as ([p1 w1] & E & H). apply basic_at_end in E as (g & Hg & _); auto.
    rewrite (incr_added _ _ _ _ Hg) in H. apply IH in H; auto. apply Forall_app. split; auto. apply Hg.
  - inversion H; subst. auto.
Qed.
Lemma general_breeder_produced fuel op h w off w' : basic op ->
  general_breeder source select flip wheel fuel op h w = Ok (off, w') -> Forall (produced op source) off.
Proof.
  intros Hb H. unfold general_breeder in H. apply rbind_ok in H as (target & E1 & H).
  apply rbind_ok in H as ([p w1] & E2 & H). inversion H; subst.
  apply (breed_loop_produced op target Hb fuel []) in E2; auto.
  apply Forall_forall. intros x Hx. rewrite Forall_forall in E2. apply E2.
  rewrite <- (firstn_skipn target (dest p)). apply in_app_iff; auto.
Qed.

(** sequences *)
Lemma seq_mon f rate : fires flip rate -> forall g a fuel w q w', g <> [] ->
  seq_loop fuel (apply (MonGen f)) rate (Pop (a ++ g) (length a)) w = Ok (q, w') ->
  exists g', dest q = a ++ g' /\ Forall2 (@mon_result G F W f) g g' /\ cur q = length (dest q).
Proof.
  intros Hfi. induction g as [|x g IH]; intros a fuel w q w' Hne H; [congruence|].
  destruct fuel as [|fuel]; cbn [BreedModel.seq_loop] in H; [discriminate|].
  apply rbind_ok in H as ([b w1] & Eb & H). apply Hfi in Eb as ->.
  apply rbind_ok in H as ([p2 w2] & E2 & H). cbn [BreedModel.apply] in E2. rewrite deref_mid in E2. cbn [rbind] in E2.
  rewrite current_mid in E2. cbn [rbind] in E2. apply rbind_ok in E2 as ([[x' ch] w3] & E3 & E2).
  cbn [cur] in E2. rewrite store_mid in E2. cbn [rbind] in E2. inversion E2; subst p2 w2. clear E2.
  assert (Hm : mon_result f x (touch ch x')) by (exists w1, x', ch, w3; auto).
  assert (Ea : at_end (Pop (a ++ touch ch x' :: g) (length a)) = false).
  { unfold at_end. cbn [dest cur]. rewrite app_length. cbn [length]. apply Nat.eqb_neq. lia. }
  rewrite Ea in H.
  assert (Ei : incr (Pop (a ++ touch ch x' :: g) (length a)) = Pop ((a ++ [touch ch x']) ++ g) (length (a ++ [touch ch x']))).
  { unfold incr. rewrite Ea. cbn [dest cur]. rewrite <- app_assoc, app_length. cbn [length]. f_equal. lia. }
  rewrite Ei in H. destruct g as [|y g].
  - rewrite app_nil_r in H. unfold at_end in H. cbn [dest cur] in H. rewrite Nat.eqb_refl in H. inversion H; subst.
    exists [touch ch x']. cbn [dest cur]. auto.
  - assert (Ea2 : at_end (Pop ((a ++ [touch ch x']) ++ y :: g) (length (a ++ [touch ch x']))) = false).
    { unfold at_end. cbn [dest cur]. rewrite !app_length. cbn [length]. apply Nat.eqb_neq. lia. }
    rewrite Ea2 in H. apply IH in H as (g' & D & F2 & C); [|discriminate].
    exists (touch ch x' :: g'). rewrite <- app_assoc in D. auto.
Qed.
Lemma Forall2_chain f fs (g g1 g2 : list I) : Forall2 (@mon_result G F W f) g g1 -> Forall2 (chain fs) g1 g2 ->
  Forall2 (@chain G F W (f :: fs)) g g2.
Proof.
  intros H. revert g2. induction H; intros g2 H2; inversion H2; subst; constructor; auto. econstructor; eauto.
Qed.
Lemma Forall2_chain_nil (g : list I) : Forall2 (@chain G F W []) g g.
Proof. induction g; constructor; auto. constructor. Qed.
Lemma seq_all_mons (l : list (Q * mon_op)) : Forall (fun rf => fires flip (fst rf)) l -> forall g a p w q w', g <> [] ->
  dest p = a ++ g ->
  seq_all source select flip wheel (length a) (map (fun rf => (fst rf, MonGen (snd rf))) l) p w = Ok (q, w') ->
  exists g', dest q = a ++ g' /\ Forall2 (chain (map snd l)) g g'.
Proof.
  induction l as [|[r f] l IH]; intros Hl g a p w q w' Hne D H; cbn [seq_all map fst snd] in H.
  - inversion H; subst. exists g. split; auto. apply Forall2_chain_nil.
  - inversion Hl as [|? ? Hf Hl']; subst. cbn [fst] in Hf. apply rbind_ok in H as ([p1 w1] & E & H). rewrite D in E.
    apply seq_mon in E as (g1 & D1 & F1 & C1); auto.
    apply (IH Hl' g1 a) in H as (g2 & D2 & F2); auto.
    + exists g2. split; auto. cbn [map snd]. eapply Forall2_chain; eauto.
    + intros ->. inversion F1; subst. congruence.
Qed.
Lemma seq_first (f : populator -> W -> res (populator * W)) rate : fires flip rate ->
  forall fuel a w q w', (forall p1 w0 w1, f (Pop a (length a)) w0 = Ok (p1, w1) -> S (cur p1) = length (dest p1)) ->
  seq_loop fuel f rate (Pop a (length a)) w = Ok (q, w') ->
  exists w0 p1, f (Pop a (length a)) w0 = Ok (p1, w') /\ q = incr p1.
Proof.
  intros Hfi fuel a w q w' Hc H. destruct fuel as [|fuel]; cbn [BreedModel.seq_loop] in H; [discriminate|].
  apply rbind_ok in H as ([b w1] & Eb & H). apply Hfi in Eb as ->.
  apply rbind_ok in H as ([p2 w2] & E2 & H). specialize (Hc _ _ _ E2).
  assert (Ea : at_end p2 = false) by (unfold at_end; apply Nat.eqb_neq; lia). rewrite Ea in H.
  assert (Ea2 : at_end (incr p2) = true).
  { unfold incr. rewrite Ea. unfold at_end. cbn [dest cur]. apply Nat.eqb_eq. auto. }
  rewrite Ea2 in H. inversion H; subst. eauto.
Qed.

(** an operator followed by mutations, all firing, at the end of the offspring *)
Lemma seq_pipeline r o (l : list (Q * mon_op)) a w q w' : basic o -> fires flip r ->
  Forall (fun rf => fires flip (fst rf)) l ->
  apply (Sequential ((r, o) :: map (fun rf => (fst rf, MonGen (snd rf))) l)) (Pop a (length a)) w = Ok (q, w') ->
  exists g g', Forall (produced o source) g /\ match o with QuadGen _ => length g = 2 | _ => length g = 1 end /\
    dest q = a ++ g' /\ Forall2 (chain (map snd l)) g g'.
Proof.
  intros Hb Hf Hl H. rewrite apply_seq in H. cbn [seq_all cur dest] in H.
  apply rbind_ok in H as ([p1 w1] & E & H).
  apply seq_first in E as (w0 & p0 & E & ->); auto.
  - apply basic_at_end in E as (g & Hg & Hlen); auto. destruct (Hg) as (D & Hne & C & Hp).
    apply (seq_all_mons l Hl g a) in H as (g' & D' & F2); auto.
    + exists g, g'. auto.
    + rewrite (incr_added _ _ _ _ Hg). auto.
  - intros p2 w0 w2 E2. apply basic_at_end in E2 as (g & (_ & _ & C & _) & _); auto.
Qed.
(** mutations on a group that is already there *)
Lemma seq_group (l : list (Q * mon_op)) a g w q w' : g <> [] ->
  Forall (fun rf => fires flip (fst rf)) l ->
  apply (Sequential (map (fun rf => (fst rf, MonGen (snd rf))) l)) (Pop (a ++ g) (length a)) w = Ok (q, w') ->
  exists g', dest q = a ++ g' /\ Forall2 (chain (map snd l)) g g'.
Proof. intros Hne Hl H. rewrite apply_seq in H. cbn [cur] in H. exact (seq_all_mons l Hl g a (Pop (a ++ g) (length a)) w q w' Hne eq_refl H). Qed.

(** eoOneToOneBreeder *)
Variable eval : I -> W -> res (I * W).
Variable ltb : F -> F -> bool.
Variable accept : W -> res (bool * W).
Notation made_from := (made_from source).
Notation one_to_one_offspring := (one_to_one_offspring source eval ltb accept).
Notation fresh_or_same := (@fresh_or_same G F).
Notation pairwise := (@pairwise G F W).
Lemma single_mid op a x w q w' : single op -> apply op (Pop (a ++ [x]) (length a)) w = Ok (q, w') ->
  exists y, q = Pop (a ++ [y]) (length a) /\ made_from op x y.
Proof.
  intros Hs H. destruct op as [f|f|f s|f|l|l]; try contradiction; cbn [BreedModel.apply] in H;
    rewrite deref_mid in H; cbn [rbind] in H.
  - rewrite current_mid in H. cbn [rbind] in H. apply rbind_ok in H as ([[x' ch] w3] & E3 & H).
    cbn [cur] in H. rewrite store_mid in H. cbn [rbind] in H. inversion H; subst.
    eexists. split; [reflexivity|]. exists w, x', ch, w'. auto.
  - apply rbind_ok in H as ([y w2] & E2 & H).
    rewrite current_mid in H. cbn [rbind] in H. apply rbind_ok in H as ([[x' ch] w3] & E3 & H).
    cbn [cur] in H. rewrite store_mid in H. cbn [rbind] in H. inversion H; subst.
    eexists. split; [reflexivity|]. exists y, w2, x', ch, w'. split; [eapply Hsel; eauto|auto].
  - apply rbind_ok in H as ([y w2] & E2 & H).
    rewrite current_mid in H. cbn [rbind] in H. apply rbind_ok in H as ([[x' ch] w3] & E3 & H).
    cbn [cur] in H. rewrite store_mid in H. cbn [rbind] in H. inversion H; subst.
    eexists. split; [reflexivity|]. exists y, w2, x', ch, w'. split; [eauto|auto].
Qed.
Lemma one_to_one_step_spec op a w q w' : single op ->
  one_to_one_step source select flip wheel eval ltb accept op (Pop a (length a)) w = Ok (q, w') ->
  exists z, q = Pop (a ++ [z]) (length (a ++ [z])) /\ one_to_one_offspring op z.
Proof.
  intros Hs H. unfold one_to_one_step in H. cbn [cur] in H.
  apply rbind_ok in H as ([p1 w1] & E1 & H). apply deref_end in E1 as (x & Ex & ->).
  rewrite current_mid in H. cbn [rbind] in H. apply rbind_ok in H as ([p2 w2] & E2 & H).
  apply single_mid in E2 as (y & -> & Hm); auto. rewrite deref_mid in H. cbn [rbind cur] in H. rewrite Nat.eqb_refl in H.
  rewrite current_mid in H. cbn [rbind] in H. apply rbind_ok in H as ([v w4] & Ev & H).
  apply rbind_ok in H as (b & Eb & H). apply rbind_ok in H as ([z w5] & Ez & H).
  rewrite store_mid in H. cbn [rbind] in H. inversion H; subst. exists z. split.
  - unfold incr, at_end. cbn [dest cur]. rewrite app_length. cbn [length].
    destruct (Nat.eqb_spec (length a) (length a + 1)); [lia|]. f_equal. lia.
  - exists x, y, v. split; [eapply Hsel; eauto|]. split; auto. split; [exists w2, w4; auto|].
    unfold better in Eb. unfold beats, beats_not. destruct (fit x) as [fx|], (fit v) as [fv|]; try discriminate.
    inversion Eb as [Hb]. destruct b.
    + apply rbind_ok in Ez as ([c w6] & Ec & Ez). destruct c; inversion Ez; subst; right; [right|left]; repeat split; eauto 10.
    + inversion Ez; subst. left. eauto 10.
Qed.
Lemma one_to_one_spec op h w off w' : single op ->
  one_to_one_breeder source select flip wheel eval ltb accept op h w = Ok (off, w') ->
  hm_call h (length source) = Ok (length off) /\ Forall (one_to_one_offspring op) off.
Proof.
  intros Hs H. unfold one_to_one_breeder in H. apply rbind_ok in H as (target & E1 & H).
  apply rbind_ok in H as ([p w1] & E2 & H). inversion H; subst. rewrite E1.
  assert (Hg : forall t a w p w', Forall (one_to_one_offspring op) a ->
    one_to_one_loop source select flip wheel eval ltb accept t op (Pop a (length a)) w = Ok (p, w') ->
    length (dest p) = length a + t /\ Forall (one_to_one_offspring op) (dest p)).
  { clear -Hs Hsel. induction t as [|t IH]; intros a w p w' Ha H; cbn [one_to_one_loop] in H.
    - inversion H; subst. cbn [dest]. split; auto; lia.
    - apply rbind_ok in H as ([p1 w1] & E & H). apply one_to_one_step_spec in E as (z & -> & Hz); auto.
      apply IH in H as [L Fa].
      + rewrite app_length in L. simpl in L. split; auto; lia.
      + apply Forall_app. split; auto. }
  destruct (Hg target [] w p w') as [L Fa]; [constructor|exact E2|]. simpl in L. rewrite L. auto.
Qed.
(** with pReplace = 1 no offspring is worse than its parent *)
Lemma one_to_one_no_worse op z : (forall w b w', accept w = Ok (b, w') -> b = true) ->
  (forall a, ltb a a = false) ->
  one_to_one_offspring op z -> exists x, In x source /\ beats_not ltb x z.
Proof.
  intros Ha Hir (x & y & v & Hx & Hm & He & [[-> Hb]|[[-> [Hb (w0 & w1 & Ew)]]|[-> [Hb _]]]]); exists x; split; auto.
  - apply Ha in Ew. discriminate.
  - destruct Hb as (fx & fy & E1 & _). exists fx, fx. auto.
Qed.

(** other operators *)
Lemma seq_loop_at_end (f : populator -> W -> res (populator * W)) rate fuel : forall p w q w',
  seq_loop fuel f rate p w = Ok (q, w') -> at_end q = true.
Proof.
  induction fuel as [|fuel IH]; intros p w q w' H; cbn [BreedModel.seq_loop] in H; [discriminate|].
  apply rbind_ok in H as ([b w1] & Eb & H). apply rbind_ok in H as ([p2 w2] & E2 & H).
  destruct (at_end (if at_end p2 then p2 else incr p2)) eqn:E; [inversion H; subst; auto|eauto].
Qed.
Lemma seq_all_at_end pos l : l <> [] -> forall p w q w', seq_all source select flip wheel pos l p w = Ok (q, w') -> at_end q = true.
Proof.
  induction l as [|[r o] l IH]; intros Hne p w q w' H; [congruence|]. cbn [seq_all] in H.
  apply rbind_ok in H as ([p1 w1] & E & H). destruct l as [|ro l].
  - cbn [seq_all] in H. inversion H; subst. eapply seq_loop_at_end; eauto.
  - eapply IH; eauto. discriminate.
Qed.
Lemma deref_cur_pos p w q w' : 0 < length (dest p) -> (at_end p = true \/ 0 < cur p) -> deref p w = Ok (q, w') -> 0 < cur q.
Proof.
  intros Hl Hp H. unfold BreedModel.deref in H. destruct (at_end p) eqn:E.
  - apply rbind_ok in H as ([x w1] & _ & H). inversion H; subst. auto.
  - inversion H; subst. destruct Hp; [congruence|auto].
Qed.
Lemma one_to_one_others op h w n : honest op -> ~ single op -> op <> Sequential [] ->
  hm_call h (length source) = Ok (S n) ->
  forall r, one_to_one_breeder source select flip wheel eval ltb accept op h w <> Ok r.
Proof.
  intros Hh Hns Hne Eh r H. unfold one_to_one_breeder in H. rewrite Eh in H. cbn [rbind one_to_one_loop] in H.
  apply rbind_ok in H as ([p w1] & H & _). apply rbind_ok in H as ([p0 w0] & H & _). unfold one_to_one_step in H. cbn [cur] in H.
  apply rbind_ok in H as ([p1 w2] & E1 & H). apply (deref_end []) in E1 as (x & Ex & ->). cbn [app length] in H.
  apply rbind_ok in H as (parent & _ & H). apply rbind_ok in H as ([p2 w3] & E2 & H).
  apply rbind_ok in H as ([p3 w4] & E3 & H).
  assert (Hi : inv source (Pop [x] 0)) by (split; [simpl; lia|constructor; auto; right; eapply Hsel; eauto]).
  assert (0 < cur p3) as Hp; [|destruct (Nat.eqb_spec (cur p3) 0); [lia|discriminate]].
  destruct (apply_inv source select flip wheel Hsel op _ _ _ _ Hh Hi E2) as [I2 G2]. unfold grows in G2. cbn [dest length] in G2.
  eapply deref_cur_pos; [| |exact E3]; [lia|]. clear E3 H.
  destruct op as [f|f|f s|f|l|l]; try (exfalso; apply Hns; exact Logic.I).
  - right. cbn [BreedModel.apply] in E2. change (deref (Pop [x] 0) w2) with (Ok (Pop [x] 0, w2)) in E2. cbn [rbind cur] in E2.
    apply rbind_ok in E2 as ([q v] & E4 & E2).
    assert (0 < cur q) as Hq.
    { eapply deref_cur_pos; [| |exact E4]; unfold incr, at_end; cbn; [lia|right; lia]. }
    apply rbind_ok in E2 as (? & _ & E2). apply rbind_ok in E2 as (? & _ & E2). apply rbind_ok in E2 as ([[[? ?] ?] ?] & _ & E2).
    apply rbind_ok in E2 as (p4 & E5 & E2). apply rbind_ok in E2 as (p5 & E6 & E2). inversion E2; subst.
    unfold store in E5, E6. apply rbind_ok in E5 as (? & _ & E5). apply rbind_ok in E6 as (? & _ & E6).
    inversion E5; subst. inversion E6; subst. exact Hq.
  - left. rewrite apply_seq in E2. eapply seq_all_at_end; [|exact E2]. congruence.
  - rewrite apply_prop in E2. apply rbind_ok in E2 as ([i v] & _ & E2). destruct (nth_error l i) as [[rt o]|]; [|discriminate].
    apply rbind_ok in E2 as ([q u] & _ & E2). inversion E2; subst. unfold incr. destruct (at_end q) eqn:Eq; auto.
    right. cbn [cur]. lia.
Qed.

(** eoSGATransform *)
Lemma fos_refl l : Forall2 fresh_or_same l l.
Proof. induction l; constructor; auto. right; auto. Qed.
Lemma fos_trans l1 l2 l3 : Forall2 fresh_or_same l1 l2 -> Forall2 fresh_or_same l2 l3 -> Forall2 fresh_or_same l1 l3.
Proof.
  intros H. revert l3. induction H as [|x y l l' Hxy H IH]; intros l3 H3; inversion H3; subst; constructor; auto.
  destruct H2 as [H2| ->]; [left; auto|auto].
Qed.
Lemma fos_set l i x y : nth_error l i = Some x -> fresh_or_same x y -> Forall2 fresh_or_same l (set l i y).
Proof.
  revert i. induction l as [|z l IH]; intros i Hi Hf; [destruct i; discriminate|].
  destruct i as [|i]; cbn [set nth_error] in *.
  - inversion Hi; subst. constructor; auto. apply fos_refl.
  - constructor; auto. right; auto.
Qed.
Lemma sga_cross_spec f rate : honest_quad f -> forall todo i pop w pop' w',
  sga_cross flip todo i f rate pop w = Ok (pop', w') -> Forall2 fresh_or_same pop pop'.
Proof.
  intros Hh. induction todo as [|t IH]; intros i pop w pop' w' H; cbn [sga_cross] in H.
  - inversion H; subst. apply fos_refl.
  - apply rbind_ok in H as ([b w1] & Eb & H). destruct b; [|eauto].
    apply rbind_ok in H as (x & Ex & H). apply rbind_ok in H as (y & Ey & H).
    apply rbind_ok in H as ([[[x' y'] ch] w2] & Ef & H). apply rbind_ok in H as (p1 & E1 & H). apply rbind_ok in H as (p2 & E2 & H).
    apply of_opt_ok in Ex, Ey. apply of_opt_ok, upd_some in E1 as [L1 ->]. apply of_opt_ok, upd_some in E2 as [L2 ->].
    apply IH in H. eapply fos_trans; [|exact H]. eapply fos_trans.
    + eapply fos_set; [exact Ex|]. instantiate (1 := touch ch x'). destruct ch; [left; auto|right].
      destruct (Hh _ _ _ _ _ _ Ef); auto.
    + eapply fos_set; [rewrite nth_error_set_neq by lia; exact Ey|]. destruct ch; [left; auto|right].
      destruct (Hh _ _ _ _ _ _ Ef); auto.
Qed.
Lemma sga_mutate_spec f rate : honest_mon f -> forall todo i pop w pop' w',
  sga_mutate flip todo i f rate pop w = Ok (pop', w') -> Forall2 fresh_or_same pop pop'.
Proof.
  intros Hh. induction todo as [|t IH]; intros i pop w pop' w' H; cbn [sga_mutate] in H.
  - inversion H; subst. apply fos_refl.
  - apply rbind_ok in H as ([b w1] & Eb & H). destruct b; [|eauto].
    apply rbind_ok in H as (x & Ex & H).
    apply rbind_ok in H as ([[x' ch] w2] & Ef & H). apply rbind_ok in H as (p1 & E1 & H).
    apply of_opt_ok in Ex. apply of_opt_ok, upd_some in E1 as [L1 ->].
    apply IH in H. eapply fos_trans; [|exact H].
    eapply fos_set; [exact Ex|]. destruct ch; [left; auto|right]. eapply Hh; eauto.
Qed.
Lemma sga_transform_spec cross crate mut mrate pop w pop' w' : honest_quad cross -> honest_mon mut ->
  sga_transform flip cross crate mut mrate pop w = Ok (pop', w') -> Forall2 fresh_or_same pop pop'.
Proof.
  intros H1 H2 H. unfold sga_transform in H. apply rbind_ok in H as ([p1 w1] & E & H).
  apply sga_cross_spec in E; auto. apply sga_mutate_spec in H; auto. eapply fos_trans; eauto.
Qed.

(** ... and with rates that always fire, every consecutive pair is crossed and everybody mutated *)
Lemma sga_mutate_all (f : mon_op) rate : fires flip rate -> forall g a w pop' w',
  sga_mutate flip (length g) (length a) f rate (a ++ g) w = Ok (pop', w') ->
  exists g', pop' = a ++ g' /\ Forall2 (@mon_result G F W f) g g'.
Proof.
  intros Hf. induction g as [|x g IH]; intros a w pop' w' H; cbn [sga_mutate length] in H.
  - inversion H; subst. exists []. auto.
  - apply rbind_ok in H as ([b w1] & Eb & H). apply Hf in Eb as ->.
    rewrite nth_error_app2, Nat.sub_diag in H by lia. cbn [nth_error of_opt rbind] in H.
    apply rbind_ok in H as ([[x' ch] w2] & Ef & H). rewrite upd_set in H by (rewrite app_length; simpl; lia).
    rewrite set_mid in H. cbn [of_opt rbind] in H.
    replace (a ++ touch ch x' :: g) with ((a ++ [touch ch x']) ++ g) in H by (rewrite <- app_assoc; auto).
    replace (S (length a)) with (length (a ++ [touch ch x'])) in H by (rewrite app_length; simpl; lia).
    apply IH in H as (g' & -> & F2). exists (touch ch x' :: g'). rewrite <- app_assoc. split; auto.
    constructor; auto. exists w1, x', ch, w2. auto.
Qed.
Lemma sga_cross_all f rate : fires flip rate -> forall n g i a w pop' w', length g = 2 * n \/ length g = 2 * n + 1 ->
  length a = 2 * i ->
  sga_cross flip n i f rate (a ++ g) w = Ok (pop', w') ->
  exists g', pop' = a ++ g' /\ pairwise f g g'.
Proof.
  intros Hf. induction n as [|n IH]; intros g i a w pop' w' Hg Ha H; cbn [sga_cross] in H.
  - inversion H; subst. exists g. split; auto. destruct g as [|x [|y g]]; [constructor|constructor|simpl in Hg; lia].
  - destruct g as [|x [|y g]]; [simpl in Hg; lia|simpl in Hg; lia|].
    apply rbind_ok in H as ([b w1] & Eb & H). apply Hf in Eb as ->.
    assert (N1 : nth_error (a ++ x :: y :: g) (2 * i) = Some x).
    { rewrite nth_error_app2 by lia. replace (2 * i - length a) with 0 by lia. reflexivity. }
    assert (N2 : nth_error (a ++ x :: y :: g) (2 * i + 1) = Some y).
    { rewrite nth_error_app2 by lia. replace (2 * i + 1 - length a) with 1 by lia. reflexivity. }
    rewrite N1, N2 in H. cbn [of_opt rbind] in H. apply rbind_ok in H as ([[[x' y'] ch] w2] & Ef & H).
    rewrite upd_set in H by (rewrite app_length; simpl; lia). rewrite <- Ha in H at 1. rewrite set_mid in H. cbn [of_opt rbind] in H.
    rewrite upd_set in H by (rewrite app_length; simpl; lia). cbn [of_opt rbind] in H.
    replace (2 * i + 1) with (length (a ++ [touch ch x'])) in H by (rewrite app_length; simpl; lia).
    replace (a ++ touch ch x' :: y :: g) with ((a ++ [touch ch x']) ++ y :: g) in H by (rewrite <- app_assoc; auto).
    rewrite set_mid in H.
    replace ((a ++ [touch ch x']) ++ touch ch y' :: g) with ((a ++ [touch ch x'; touch ch y']) ++ g) in H
      by (rewrite <- !app_assoc; auto).
    apply IH in H as (g' & -> & P).
    + exists (touch ch x' :: touch ch y' :: g'). rewrite <- app_assoc. split; auto. constructor; auto.
      exists w1, x', y', ch, w2. auto.
    + simpl in Hg. lia.
    + rewrite app_length. simpl. lia.
Qed.
Lemma pairwise_length f l l' : pairwise f l l' -> length l' = length l.
Proof. induction 1; simpl; auto. Qed.
Lemma sga_transform_all cross crate mut mrate pop w pop' w' : fires flip crate -> fires flip mrate ->
  sga_transform flip cross crate mut mrate pop w = Ok (pop', w') ->
  exists mid, pairwise cross pop mid /\ Forall2 (@mon_result G F W mut) mid pop'.
Proof.
  intros H1 H2 H. unfold sga_transform in H. apply rbind_ok in H as ([p1 w1] & E & H).
  pose proof (Nat.div_mod (length pop) 2 ltac:(lia)) as Hd. pose proof (Nat.mod_upper_bound (length pop) 2 ltac:(lia)) as Hm.
  apply (sga_cross_all cross crate H1 (length pop / 2) pop 0 []) in E as (mid & -> & P); [|lia|reflexivity].
  cbn [app] in H. apply (sga_mutate_all mut mrate H2 mid []) in H as (g' & -> & F2). exists mid. auto.
Qed.

(** a sequence none of whose operators fires produces nobody: breeding never ends *)
Lemma idle_sequence (l : list (Q * genop)) a w :
  (forall ro, In ro l -> forall w, flip (fst ro) w = Ok (false, w)) ->
  apply (Sequential l) (Pop a (length a)) w = Ok (Pop a (length a), w).
Proof.
  intros H. rewrite apply_seq. cbn [cur]. induction l as [|[r o] l IH]; cbn [seq_all]; auto.
  cbn [dest]. rewrite Nat.sub_diag. cbn [BreedModel.seq_loop]. rewrite (H (r, o) (or_introl eq_refl)). cbn [rbind fst].
  assert (E : at_end (Pop a (length a)) = true) by (unfold at_end; cbn [dest cur]; apply Nat.eqb_refl).
  rewrite E, E. cbn [rbind]. apply IH. intros ro Hro. apply H. right; auto.
Qed.
Lemma idle_breeder (l : list (Q * genop)) h n w fuel :
  (forall ro, In ro l -> forall w, flip (fst ro) w = Ok (false, w)) ->
  hm_call h (length source) = Ok (S n) ->
  general_breeder source select flip wheel fuel (Sequential l) h w = NoDraw.
Proof.
  intros H Eh. unfold general_breeder. rewrite Eh. cbn [rbind].
  assert (E : forall fuel, breed_loop source select flip wheel fuel (Sequential l) (S n) (Pop [] 0) w = NoDraw).
  { induction fuel0 as [|f IH]; cbn [breed_loop]; auto. cbn [dest length Nat.ltb Nat.leb].
    pose proof (idle_sequence l [] w H) as Ei. cbn [length] in Ei. rewrite Ei. cbn [rbind]. exact IH. }
  rewrite E. reflexivity.
Qed.
End Ops.
End Breed.
