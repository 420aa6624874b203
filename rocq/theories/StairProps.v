(** C124-C126: the two-objective archive bounded by hypervolume contribution. *)
From Coq Require Import Bool Arith QArith Lqa Lia Permutation.
From Verif Require Import Lib Outcome BoundsModel BoundsProofs StairModel StairSpec StairProofs StairFit StairOffer.
From Coq Require Import List.
Import ListNotations.
Close Scope Q_scope.
Open Scope nat_scope.

Section P.
Context {G : Type}.
Notation pts := (map (@mpt G)).

Lemma in_without {X} (l : list X) i a : In a (firstn i l ++ skipn (S i) l) -> In a l.
Proof.
  intros H. apply in_app_or in H as [H|H].
  - rewrite <- (firstn_skipn i l). apply in_or_app; auto.
  - rewrite <- (firstn_skipn (S i) l). apply in_or_app; auto.
Qed.
Lemma offered_in m mv (old : list (pt G)) v new r : offered m mv old v new r -> forall a, In a new -> In a old \/ a = v.
Proof.
  intros [(_ & -> & _)|(_ & be & af & go & Pm & _ & _ & _ & H)] a I; auto.
  assert (X : In a (be ++ v :: af)).
  { destruct H as [(_ & -> & _)|(_ & _ & i & _ & -> & _)]; auto. apply in_without in I. auto. }
  apply in_app_or in X as [X|[X|X]]; [left|auto|left]; (apply (Permutation_in _ (Permutation_sym Pm)), in_or_app; auto).
  right. apply in_or_app; auto.
Qed.
Lemma offered_false m mv (old : list (pt G)) v new : offered m mv old v new false -> Permutation old new.
Proof.
  intros [(_ & -> & _)|(_ & be & af & go & Pm & _ & _ & _ & H)]; auto.
  destruct H as [(_ & _ & X)|(_ & -> & i & _ & -> & E)]; [discriminate|]. rewrite (proj1 E eq_refl).
  unfold without. rewrite without_mid. exact Pm.
Qed.

Definition good (m : nat) (mv : Q) (l : list (member G)) : Prop := right mv l /\ staircase (pts l) /\ length l <= m.
Lemma good_nil m mv : good m mv [].
Proof. split; [intros k e E; destruct k; discriminate|]. split; [apply staircase_nil|cbn; lia]. Qed.
Lemma good_offer m mv l v l' r : 2 <= m -> good m mv l -> offer m mv l v = Ok (l', r) ->
  good m mv l' /\ offered m mv (pts l) (mpt v) (pts l') r.
Proof.
  intros Hm (R & St & L) E. destruct (offer_ok mv m l v Hm R St L) as [(l1 & r1 & E1 & O & R' & S' & L')|(E1 & _)]; [|congruence].
  rewrite E1 in E. injection E as <- <-. split; [split; auto|auto].
Qed.
Lemma good_offers m mv vs : 2 <= m -> forall l b l' r, good m mv l -> offers m mv l vs b = Ok (l', r) ->
  good m mv l' /\ (forall a, In a (pts l') -> In a (pts l) \/ In a (pts vs)) /\ (r = false -> b = false /\ Permutation (pts l) (pts l')).
Proof.
  intros Hm. induction vs as [|v vs IH]; intros l b l' r Gd H; cbn [offers] in H.
  - injection H as <- <-. split; [auto|]. split; [auto|]. intros ->; auto.
  - apply rbind_ok in H as ([l1 t] & H1 & H). destruct (good_offer _ _ _ _ _ _ Hm Gd H1) as [G1 O1].
    destruct (IH _ _ _ _ G1 H) as (G2 & I2 & F2). split; [auto|]. split.
    + intros a I. cbn [map]. destruct (I2 a I) as [J|J]; [|right; right; auto].
      destruct (offered_in _ _ _ _ _ _ O1 a J) as [K| ->]; [auto|right; left; auto].
    + intros E. destruct (F2 E) as [T P2]. apply orb_false_iff in T as [-> ->]. split; auto.
      eapply Permutation_trans; [eapply offered_false; eauto|auto].
Qed.
Lemma good_fitness m mv l i a f : good m mv l -> nth_error l i = Some (a, Some f) -> contributes mv (pts l) i f.
Proof.
  intros (R & St & _) E. pose proof (R i _ E) as F. cbn in F. injection F as ->.
  apply contrib_contributes; auto. rewrite map_length. eapply nth_error_lt; eauto.
Qed.
End P.

(** C124: whatever solutions are offered, in whatever order, the archive is a staircase of
    offered solutions, within its capacity, and the fitness of each member is the area that it
    alone covers *)
Theorem C124_archive_invariant (G : Type) (maxSize : nat) (mv : Q) (vs l : list (member G)) (b r : bool) :
  offers (capacity maxSize) mv [] vs b = Ok (l, r) ->
  staircase (map mpt l) /\ length l <= Nat.max 2 maxSize /\
  (forall a, In a (map mpt l) -> In a (map mpt vs)) /\
  (forall i a f, nth_error l i = Some (a, f) -> exists q, f = Some q /\ contributes mv (map mpt l) i q).
Proof.
  intros H. assert (Hm : 2 <= capacity maxSize) by (unfold capacity; lia).
  destruct (good_offers _ mv vs Hm [] b l r (good_nil _ _) H) as (Gd & I & _).
  pose proof Gd as (R & St & L). split; [auto|]. split; [exact L|]. split.
  - intros a J. destruct (I a J) as [[]|]; auto.
  - intros i a f E. pose proof (R i _ E) as F. cbn in F. subst f. eexists. split; [reflexivity|]. eapply good_fitness; eauto.
Qed.
Print Assumptions C124_archive_invariant.

(** C124: one more offer refuses a covered solution, otherwise takes it and drops the members it
    covers; when there is one member too many, one that contributes least goes.  The answer tells
    whether the solution is in. *)
Theorem C124_offer (G : Type) (maxSize : nat) (mv : Q) (vs l l' : list (member G)) (v : member G) (b r r' : bool) :
  offers (capacity maxSize) mv [] vs b = Ok (l, r) -> offer (capacity maxSize) mv l v = Ok (l', r') ->
  offered (Nat.max 2 maxSize) mv (map mpt l) (mpt v) (map mpt l') r'.
Proof.
  intros H E. assert (Hm : 2 <= capacity maxSize) by (unfold capacity; lia).
  destruct (good_offers _ mv vs Hm [] b l r (good_nil _ _) H) as (Gd & _).
  exact (proj2 (good_offer _ _ _ _ _ _ Hm Gd E)).
Qed.
Print Assumptions C124_offer.

(** C124: the answer of an offer is whether the solution is among the members afterwards *)
Theorem C124_answer (G : Type) (maxSize : nat) (mv : Q) (vs l l' : list (member G)) (v : member G) (b r r' : bool) :
  offers (capacity maxSize) mv [] vs b = Ok (l, r) -> offer (capacity maxSize) mv l v = Ok (l', r') -> ~ In (mpt v) (map mpt l) ->
  (r' = true <-> In (mpt v) (map mpt l')).
Proof.
  intros H E N. pose proof (C124_offer _ _ _ _ _ _ _ _ _ _ H E) as O.
  destruct (C124_archive_invariant _ _ _ _ _ _ _ H) as (St & _).
  destruct O as [(_ & -> & ->)|(_ & be & af & go & Pm & _ & _ & St' & O)]; [split; [discriminate|tauto]|].
  destruct O as [(_ & -> & ->)|(_ & -> & i & _ & -> & Ei)].
  - split; auto. intros _. apply in_or_app. right. left. auto.
  - split.
    + intros ->. destruct (Nat.lt_trichotomy i (length be)) as [X|[X|X]]; [|exfalso; apply Ei in X; discriminate|].
      * unfold without. apply in_or_app. right.
        rewrite skipn_app. replace (S i - length be) with 0 by lia. apply in_or_app. right. left. auto.
      * unfold without. apply in_or_app. left. rewrite firstn_app. apply in_or_app. right.
        destruct (i - length be) eqn:Z; [lia|]. left. auto.
    + intros I. destruct r'; auto. exfalso. apply N. pose proof (proj1 Ei eq_refl) as ->.
      unfold without in I. rewrite without_mid in I. apply (Permutation_in _ (Permutation_sym Pm)). exact I.
Qed.
Print Assumptions C124_answer.

(** C124: offering a population tells whether anything was taken; when not, the members stay *)
Theorem C124_population (G : Type) (maxSize : nat) (mv : Q) (vs ws l l' : list (member G)) (b r r' : bool) :
  offers (capacity maxSize) mv [] vs b = Ok (l, r) -> offers (capacity maxSize) mv l ws false = Ok (l', r') ->
  (r' = false -> Permutation (map mpt l) (map mpt l')) /\
  (forall us v ws' l1 r1 l2, ws = us ++ v :: ws' -> offers (capacity maxSize) mv l us false = Ok (l1, r1) ->
     offer (capacity maxSize) mv l1 v = Ok (l2, true) -> r' = true).
Proof.
  intros H E. assert (Hm : 2 <= capacity maxSize) by (unfold capacity; lia).
  destruct (good_offers _ mv vs Hm [] b l r (good_nil _ _) H) as (Gd & _). split.
  - intros F. exact (proj2 (proj2 (proj2 (good_offers _ _ _ Hm _ _ _ _ Gd E)) F)).
  - intros us v ws' l1 r1 l2 -> E1 E2.
    assert (T : forall ws l b l' r, offers (G := G) (capacity maxSize) mv l ws b = Ok (l', r) -> b = true -> r = true).
    { clear. induction ws as [|w ws IH]; intros l b l' r H ->; cbn in H; [congruence|].
      apply rbind_ok in H as ([l1 t] & H1 & H). eapply IH; eauto. apply orb_true_r. }
    assert (S' : forall us l b ws l' r, offers (G := G) (capacity maxSize) mv l (us ++ ws) b = Ok (l', r) ->
       exists l1 r1, offers (capacity maxSize) mv l us b = Ok (l1, r1) /\ offers (capacity maxSize) mv l1 ws r1 = Ok (l', r)).
    { clear. induction us as [|u us IH]; intros l b ws l' r H; cbn [app offers] in *; [eauto|].
      apply rbind_ok in H as ([l1 t] & H1 & H). rewrite H1. cbn [rbind]. eauto. }
    destruct (S' _ _ _ _ _ _ E) as (l3 & r3 & E3 & E4). rewrite E1 in E3. injection E3 as <- <-.
    cbn [offers] in E4. rewrite E2 in E4. cbn [rbind] in E4. eapply T; eauto.
Qed.
Print Assumptions C124_population.

(** C125: as long as no more solutions were offered than the archive can hold, updating always
    succeeds and the archive is the Pareto front of what was offered *)
Theorem C125_front (G : Type) (maxSize : nat) (mv : Q) (vs : list (member G)) (b : bool) : length vs <= Nat.max 2 maxSize ->
  exists l r, offers (capacity maxSize) mv [] vs b = Ok (l, r) /\
  (forall a, In a (map mpt l) -> undominated (map mpt vs) a) /\
  (forall v, In v (map mpt vs) -> exists a, In a (map mpt l) /\ covers a v).
Proof.
  intros L. assert (Hm : 2 <= capacity maxSize) by (unfold capacity; lia).
  assert (K : forall vs (l : list (member G)) b, good (capacity maxSize) mv l -> length l + length vs <= capacity maxSize ->
    exists l' r, offers (capacity maxSize) mv l vs b = Ok (l', r) /\
    (forall v, In v (map mpt l) \/ In v (map mpt vs) -> exists a, In a (map mpt l') /\ covers a v)).
  { clear vs b L. induction vs as [|v vs IH]; intros l b Gd L; cbn [length] in L.
    - exists l, b. split; [reflexivity|]. intros v [I|[]]. exists v. split; auto. split; lra.
    - pose proof Gd as (R & St & Ll). cbn [offers map].
      destruct (offer_ok mv _ l v Hm R St Ll) as [(l1 & r1 & E1 & O & R' & S' & L')|(_ & X & _)]; [|lia].
      rewrite E1. cbn [rbind]. 
      assert (C1 : (forall a, In a (map mpt l) \/ a = mpt v -> exists a', In a' (map mpt l1) /\ covers a' a) /\ length l1 <= S (length l)).
      { rewrite <- (map_length mpt l1), <- (map_length mpt l).
        destruct O as [((e & Ie & Ce) & -> & _)|(_ & be & af & go & Pm & Hgo & _ & _ & H)].
        - split; [|lia]. intros a [I| ->]; [exists a; split; auto; split; lra|eauto].
        - pose proof (Permutation_length Pm) as Lp. rewrite !app_length, map_length in Lp.
          destruct H as [(_ & -> & _)|(X & -> & _)].
          + split; [|rewrite !app_length; cbn [length]; rewrite map_length; lia].
            intros a [I| ->].
            * apply (Permutation_in _ Pm) in I. apply in_app_or in I as [I|I]; [exists a; split; [apply in_or_app; auto|split; lra]|].
              apply in_app_or in I as [I|I]; [|exists a; split; [apply in_or_app; right; right; auto|split; lra]].
              exists (mpt v). split; [apply in_or_app; right; left; auto|auto].
            * exists (mpt v). split; [apply in_or_app; right; left; auto|split; lra].
          + exfalso. rewrite app_length in X. cbn [length] in *. unfold capacity in *. lia. }
      destruct C1 as [C1 L1]. destruct (IH l1 (r1 || b)) as (l' & r & E & C); [split; auto|lia|].
      exists l', r. split; [auto|]. intros a I.
      assert (J : (In a (map mpt l) \/ a = mpt v) \/ In a (map mpt vs)) by (destruct I as [I|[I|I]]; auto).
      destruct J as [J|J]; [|apply C; auto]. destruct (C1 a J) as (a1 & I1 & D1). destruct (C a1 (or_introl I1)) as (a2 & I2 & D2).
      exists a2. split; auto. destruct D1, D2. split; lra. }
  destruct (K vs [] b (good_nil _ _)) as (l & r & E & C); [cbn; exact L|]. exists l, r. split; [auto|].
  destruct (C124_archive_invariant _ _ _ _ _ _ _ E) as (St & _ & In_ & _). split.
  - intros a I. split; auto. intros w Iw Cw. destruct (C w (or_intror Iw)) as (a' & I' & C').
    enough (a' = a) as -> by auto.
    apply In_nth_error in I as [i Ei]. apply In_nth_error in I' as [j Ej]. destruct Cw, C'.
    destruct (Nat.lt_trichotomy i j) as [X|[X|X]].
    + destruct (St i j a a'); auto. lra.
    + subst. congruence.
    + destruct (St j i a' a); auto. lra.
  - intros v I. apply C. auto.
Qed.
Print Assumptions C125_front.

(** C126: on a reachable archive, offering a solution is well defined when all coordinates lie in
    a square of an area below the value given to the extreme members, unless the archive is full
    and the solution, incomparable with every member, falls between the last two *)
Theorem C126_offer_defined_partial (G : Type) (maxSize : nat) (mv : Q) (vs l : list (member G)) (v : member G) (b r : bool) (lo side : Q) :
  (side * side < mv)%Q ->
  (forall a, In a (map mpt (v :: vs)) -> (lo <= px a <= lo + side)%Q /\ (lo <= py a <= lo + side)%Q) ->
  offers (capacity maxSize) mv [] vs b = Ok (l, r) ->
  (exists l' r', offer (capacity maxSize) mv l v = Ok (l', r')) \/
  (length l = Nat.max 2 maxSize /\ next_to_last (map mpt l) (mpt v) /\
   forall a, In a (map mpt l) -> ~ covers a (mpt v) /\ ~ covers (mpt v) a).
Proof.
  intros Hs Box H. assert (Hm : 2 <= capacity maxSize) by (unfold capacity; lia).
  destruct (good_offers _ mv vs Hm [] b l r (good_nil _ _) H) as ((R & St & L) & I & _).
  destruct (offer_ok mv _ l v Hm R St L) as [(l1 & r1 & E1 & _)|(E1 & X & Inc & C)]; [eauto|].
  right. split; [exact X|]. destruct C as [C|(be & af & E & Si & C)]; [split; auto|]. exfalso.
  assert (Ln : length (be ++ mpt v :: af) = S (length l)).
  { rewrite <- (map_length mpt l), E, !app_length. cbn. lia. }
  assert (Bx : forall a, In a (be ++ mpt v :: af) -> (lo <= px a <= lo + side)%Q /\ (lo <= py a <= lo + side)%Q).
  { intros a J. apply Box. cbn [map]. apply in_app_or in J as [J|[J|J]]; [|left; auto|].
    - right. destruct (I a) as [[]|]; auto. rewrite E. apply in_or_app; auto.
    - right. destruct (I a) as [[]|]; auto. rewrite E. apply in_or_app; auto. }
  set (s := be ++ mpt v :: af) in *.
  pose proof (contrib_contributes mv s 1 Si ltac:(lia)) as C1. pose proof (C 1 _ C1) as C2. cbn [contrib] in C2.
  destruct (nth_error_in_some s 0) as [a Ea]; [lia|]. destruct (nth_error_in_some s 1) as [e Ee]; [lia|].
  destruct (nth_error_in_some s 2) as [n En]; [lia|]. rewrite Ea, Ee, En in C2.
  destruct (Si 0 1 a e) as [P1 P2]; auto. destruct (Si 1 2 e n) as [P3 P4]; auto.
  destruct (Bx a (nth_error_In _ _ Ea)) as [Q1 Q2]. destruct (Bx e (nth_error_In _ _ Ee)) as [Q3 Q4].
  destruct (Bx n (nth_error_In _ _ En)) as [Q5 Q6].
  assert (D1 : (0 < px a - px e <= side)%Q) by lra. assert (D2 : (0 < py n - py e <= side)%Q) by lra.
  revert D1 D2 C2 Hs. generalize (px a - px e)%Q (py n - py e)%Q. intros x y. clear. intros. nra.
Qed.
Print Assumptions C126_offer_defined_partial.

(** C126: in the remaining case the update always reads past the end of the set *)
Theorem C126_past_the_end (G : Type) (maxSize : nat) (mv : Q) (vs l : list (member G)) (v : member G) (b r : bool) :
  offers (capacity maxSize) mv [] vs b = Ok (l, r) -> length l = Nat.max 2 maxSize ->
  next_to_last (map mpt l) (mpt v) -> (forall a, In a (map mpt l) -> ~ covers a (mpt v) /\ ~ covers (mpt v) a) ->
  offer (capacity maxSize) mv l v = UB.
Proof.
  intros H L (be & la & E & Nb & Hb & Hl) Inc. assert (Hm : 2 <= capacity maxSize) by (unfold capacity; lia).
  destruct (good_offers _ mv vs Hm [] b l r (good_nil _ _) H) as ((R & St & Le) & I & _).
  assert (N : l <> []) by (intros ->; cbn [length] in L; lia).
  destruct (insert_test_ok l (mpt v) N St) as [(Et & e & Ie & Ce)|(U & D & W & El & Et & Rm & Ncov)].
  { exfalso. exact (proj1 (Inc e Ie) Ce). }
  assert (D = []) as ->.
  { destruct D as [|d D]; auto. exfalso. apply (proj2 (Inc (mpt d) ltac:(rewrite El; apply in_map, in_or_app; right; left; auto))).
    apply Rm. left. auto. }
  destruct Rm as (R1 & _ & R3). cbn [app] in El.
  assert (HW : exists w, W = [w] /\ U <> []).
  { rewrite El, map_app in E. destruct (last_split W) as [->|(W' & w & ->)].
    - exfalso. cbn in E. rewrite app_nil_r in E. assert (In la (map mpt U)) by (rewrite E; apply in_or_app; right; left; auto).
      apply pts_in in H0 as (e & Ie & <-). destruct (R1 e Ie). lra.
    - rewrite map_app, app_assoc in E. cbn [map] in E. apply app_inj_tail in E as [E <-]. exists w.
      assert (W' = []) as ->.
      { destruct W' as [|w' W']; auto. exfalso.
        assert (In (mpt w') be) by (rewrite <- E; apply in_or_app; right; left; auto).
        destruct (R3 w'); [left; auto|]. specialize (Hb _ H0). lra. }
      split; auto. intros ->. cbn in E. auto. }
  destruct HW as (w & -> & NU).
  assert (Eo : offer (capacity maxSize) mv l v = filter_ (capacity maxSize) mv (U ++ [w]) (length U) v).
  { destruct l as [|e0 l0]; [tauto|]. unfold offer. rewrite Et. cbn [rbind].
    destruct (Nat.ltb_spec (length (U ++ [w])) (capacity maxSize)) as [X|X]; [|reflexivity].
    exfalso. rewrite El in L. unfold capacity in X. lia. }
  rewrite Eo. unfold filter_. rewrite app_length. cbn [length].
  destruct (Nat.eqb_spec (length U) 0) as [X|X]; [destruct U; [tauto|discriminate]|].
  destruct (Nat.eqb_spec (length U) (length U + 1)); [lia|]. cbn [orb].
  destruct (tmp_here mv U [w] (mpt v) NU) as (t & -> & _); [discriminate|]. cbn [rbind].
  destruct (tmp_before mv U [w] (mpt v) NU) as (pr & -> & _). cbn [rbind].
  rewrite tmp_after_ub by auto. reflexivity.
Qed.
Print Assumptions C126_past_the_end.

(** ** examples *)
Definition sol (x y : Q) (g : nat) : member nat := (Pt x y g, None).
(** the sequence of t-moeo2DMinHypervolumeArchive.cpp, capacity 5 *)
Definition the_test : list (member nat) :=
  [sol 7 15 0; sol 10 14 1; sol 8 (29 # 2) 2; sol 6 15 3; sol 14 13 4; sol 12 (27 # 2) 5; sol (29 # 2) (25 # 2) 6; sol 14 13 7;
   sol (23 # 2) (23 # 2) 8; sol (11 # 2) (25 # 2) 9; sol (7 # 2) (27 # 2) 10; sol 15 (7 # 2) 11; sol (27 # 2) 8 12; sol 1 15 13].
Definition shown (l : list (member nat)) : list (nat * option Q) :=
  map (fun e => (gen (mpt e), match snd e with Some q => Some (Qred q) | None => None end)) l.
(** the members and the fitness values that the test expects *)
Example C124_example : match offers (capacity 5) 1000 [] the_test false with
  | Ok (l, r) => shown l = [(11, Some 1000%Q); (12, Some (27 # 4)%Q); (9, Some 8%Q); (10, Some 3%Q); (13, Some 1000%Q)] /\ r = true
  | _ => False end.
Proof. vm_compute. auto. Qed.
(** a covered solution is refused, a full archive drops its least contributor *)
Example C124_example_full : match offers (capacity 3) 1000 [] [sol 0 9 0; sol 9 0 1; sol 5 5 2; sol 6 6 3; sol 10 (-1) 4] false with
  | Ok (l, r) => shown l = [(4, Some 1000%Q); (2, Some 20%Q); (0, Some 1000%Q)] /\ r = true
  | _ => False end.
Proof. vm_compute. auto. Qed.
Example C125_example : length (firstn 4 the_test) <= Nat.max 2 5 /\
  match offers (capacity 5) 1000 [] (firstn 4 the_test) false with
  | Ok (l, r) => map (fun e => gen (mpt e)) l = [1; 2; 3] | _ => False end.
Proof. vm_compute. split; [lia|reflexivity]. Qed.
(** C126: the documented update is not defined for every solution: with three members, a
    solution between the last two makes it dereference end() *)
Example C126_example : match offers (capacity 3) 1000 [] [sol 0 9 0; sol 9 0 1; sol 5 5 2] false with
  | Ok (l, _) => length l = 3 /\ next_to_last (map mpt l) (Pt 2 7 9) /\ offer (capacity 3) 1000 l (sol 2 7 9) = UB
  | _ => False end.
Proof.
  vm_compute offers. split; [reflexivity|]. split; [|vm_compute; reflexivity].
  exists [Pt 9 0 1; Pt 5 5 2], (Pt 0 9 0). cbn. repeat split; try discriminate.
  intros e [<-|[<-|[]]]; reflexivity.
Qed.
Theorem C126_always_defined_refuted : exists (maxSize : nat) (mv : Q) (vs l : list (member nat)) (v : member nat) (r : bool),
  offers (capacity maxSize) mv [] vs false = Ok (l, r) /\ offer (capacity maxSize) mv l v = UB.
Proof.
  exists 3, 1000%Q, [sol 0 9 0; sol 9 0 1; sol 5 5 2].
  destruct (offers (capacity 3) 1000 [] [sol 0 9 0; sol 9 0 1; sol 5 5 2] false) as [[l r]| | |] eqn:E; try (vm_compute in E; discriminate).
  exists l, (sol 2 7 9), r. split; [reflexivity|]. vm_compute in E. injection E as <- <-. vm_compute. reflexivity.
Qed.
Print Assumptions C126_always_defined_refuted.
(** C126: contributions that all reach the value given to the extreme members leave the search
    for the least without a result *)
Theorem C126_large_contributions_refuted : exists (vs l : list (member nat)) (v : member nat) (r : bool),
  offers (capacity 3) 1 [] vs false = Ok (l, r) /\ offer (capacity 3) 1 l v = UB /\ ~ next_to_last (map mpt l) (mpt v).
Proof.
  exists [sol 0 9 0; sol 9 0 1; sol 5 5 2].
  destruct (offers (capacity 3) 1 [] [sol 0 9 0; sol 9 0 1; sol 5 5 2] false) as [[l r]| | |] eqn:E; try (vm_compute in E; discriminate).
  exists l, (sol 20 (-9) 9), r. split; [reflexivity|]. vm_compute in E. injection E as <- <-. split; [vm_compute; reflexivity|].
  intros (be & la & E & Nb & Hb & _). destruct be as [|a be]; [tauto|]. injection E as <- _.
  specialize (Hb _ (or_introl eq_refl)). vm_compute in Hb. discriminate.
Qed.
Print Assumptions C126_large_contributions_refuted.
