(** Theorems C217 and C218. *)
From Coq Require Import Arith ZArith Bool Lia Sorting.Sorted.
From Verif Require Import Lib Outcome QixModel QixSpec QixProofs.
From Coq Require Import List.
Import ListNotations.
Open Scope Z_scope.

(** the index after the insertions of a history *)
Definition history (d0 d1 : bool) (os : list (Z * Z)) : list entry := fold_left (fun l o => snd (insert d0 d1 o true l)) os [].

(** ** C217: the index *)

(** Whatever was inserted, the index holds exactly the vectors that no inserted vector dominates, each of them once. *)
Theorem C217_front : forall d0 d1 os,
  NoDup (map obj (history d0 d1 os)) /\ forall v, In v (map obj (history d0 d1 os)) <-> best_of d0 d1 os v.
Proof.
  intros d0 d1 os. destruct (inserted_inv d0 d1 os) as (F & S & K). change (inserted d0 d1 os) with (history d0 d1 os) in *. split.
  - clear S K. induction (history d0 d1 os) as [|x l IH]; cbn [map]; [constructor|]. apply front_cons in F as (F & A). constructor; [|auto].
    intro I. apply in_map_iff in I as (y & E & Y). specialize (A y Y). unfold ahead in A. rewrite E in A. lia.
  - intro v. split.
    + intro I. apply in_map_iff in I as (x & <- & X). split; [auto|]. intros w W (C & N). destruct (K w W) as (e & He & Ce).
      pose proof (covers_trans _ _ _ _ _ Ce C) as Cx. pose proof (front_no_cover _ _ _ e x F He X Cx) as ->. apply N. eapply covers_antisym; eauto.
    + intros (V & B). destruct (K v V) as (e & He & Ce). apply in_map_iff. exists e. split; [|easy].
      assert (D : {obj e = v} + {obj e <> v}) by (decide equality; apply Z.eq_dec). destruct D as [D|D]; [exact D|]. exfalso. apply (B (obj e)); [auto|]. split; auto.
Qed.
(** A vector is accepted exactly if no vector inserted so far is as good everywhere; the deletions asked for are then the vectors of the index that it
    dominates; a refused one asks for none. *)
Theorem C217_answer : forall d0 d1 os o ins ok gone index', insert d0 d1 o ins (history d0 d1 os) = (ok, gone, index') ->
  (ok = true <-> forall v, In v os -> ~ covers d0 d1 v o) /\
  (ok = true -> forall e, In e gone <-> In e (history d0 d1 os) /\ pareto_dominates d0 d1 o (obj e)) /\
  (ok = false -> gone = []).
Proof.
  intros d0 d1 os o ins ok gone index' H. destruct (inserted_inv d0 d1 os) as (F & S & K). change (inserted d0 d1 os) with (history d0 d1 os) in *.
  destruct (insert_ok d0 d1 o ins _ ok gone index' F H) as [(-> & -> & -> & e & He & Ce)|(-> & before & rest & Ei & G & Fr & _)].
  - split; [split; [easy|intro N; exfalso; apply (N (obj e)); auto]|]. split; easy.
  - specialize (Fr 0%nat). apply front_app in Fr as (_ & Fr & Fb). apply front_cons in Fr as (_ & Fr).
    assert (B : forall x, In x before -> ahead d0 d1 x (Entry o 0)) by (intros x X; apply Fb; [easy|now left]).
    split; [|split; [|easy]].
    + split; [intros _ v V C|easy]. destruct (K v V) as (e & He & Ce). pose proof (covers_trans _ _ _ _ _ Ce C) as Ca. pose proof Ca as Cb.
      apply covers_ok in Cb. rewrite Ei in He. apply in_app_or in He as [He|He]; [|apply in_app_or in He as [He|He]].
      * specialize (B e He). unfold ahead in B. cbn [obj] in B. lia.
      * apply G in He as (C2 & N). apply N. eapply covers_antisym; eauto.
      * specialize (Fr e He). unfold ahead in Fr. cbn [obj] in Fr. lia.
    + intros _ e. split.
      * intro I. split; [rewrite Ei; apply in_or_app; right; apply in_or_app; now left|auto].
      * intros (I & C & N). apply covers_ok in C. rewrite Ei in I. apply in_app_or in I as [I|I]; [|apply in_app_or in I as [I|I]; [easy|]].
        -- specialize (B e I). unfold ahead in B. cbn [obj] in B. lia.
        -- specialize (Fr e I). unfold ahead in Fr. cbn [obj] in Fr. lia.
Qed.
(** Asking without inserting, or inserting a refused vector, leaves the index as it is; a new vector gets the number of remaining entries as its place. *)
Theorem C217_asking : forall d0 d1 os o ins ok gone index', insert d0 d1 o ins (history d0 d1 os) = (ok, gone, index') ->
  (ins = false \/ ok = false -> index' = history d0 d1 os) /\
  (ins = true -> ok = true -> In (Entry o (length (history d0 d1 os) - length gone)) index' /\
     forall e, In e (history d0 d1 os) -> ~ In e gone -> In e index').
Proof.
  intros d0 d1 os o ins ok gone index' H. destruct (inserted_inv d0 d1 os) as (F & _ & _). change (inserted d0 d1 os) with (history d0 d1 os) in *.
  destruct (insert_ok d0 d1 o ins _ ok gone index' F H) as [(-> & -> & -> & _)|(-> & before & rest & Ei & _ & _ & E')].
  - split; [easy|easy].
  - split.
    + intros [->|?]; [exact E'|easy].
    + intros -> _. subst index'. rewrite Ei. split.
      * apply in_or_app. right. left. f_equal. rewrite !app_length. lia.
      * intros e I N. apply in_app_or in I as [I|I]; [apply in_or_app; now left|]. apply in_app_or in I as [I|I]; [easy|]. apply in_or_app. right. now right.
Qed.
(** The entries are in the order of the second objective, from the best to the worst, and then from the worst to the best of the first one. *)
Theorem C217_order : forall d0 d1 os,
  StronglySorted (fun x y => ~ as_good d1 (snd (obj y)) (snd (obj x)) /\ ~ as_good d0 (fst (obj x)) (fst (obj y))) (history d0 d1 os).
Proof.
  intros d0 d1 os. destruct (inserted_inv d0 d1 os) as (F & _ & _). change (inserted d0 d1 os) with (history d0 d1 os) in F. unfold front in F.
  induction F as [|x l F IH A]; constructor; auto. rewrite Forall_forall in *. intros y Y. specialize (A y Y).
  unfold ahead, c0, c1, as_good in *. destruct d0, d1; lia.
Qed.
(** While no inserted vector is as good everywhere as another, the archive that uses the index takes them all, in order. *)
Theorem C217_archive_of_incomparable : forall d0 d1 os,
  ForallOrdPairs (fun a b => ~ covers d0 d1 a b /\ ~ covers d0 d1 b a) os ->
  fold_left (fun r o => let! a := r in let! (_, a) := add_member d0 d1 o a in Ok a) os (Ok (Archive [] [])) = Ok (Archive os (history d0 d1 os)).
Proof.
  intros d0 d1 os. induction os as [|o os IH] using rev_ind; intro P; [reflexivity|].
  assert (Q : ForallOrdPairs (fun a b => ~ covers d0 d1 a b /\ ~ covers d0 d1 b a) os /\ forall v, In v os -> ~ covers d0 d1 v o /\ ~ covers d0 d1 o v).
  { clear IH. induction os as [|x os IHo]; [split; [constructor|easy]|]. cbn [app] in P. inversion P as [|? ? A B]; subst. destruct (IHo B) as (C & D).
    rewrite Forall_forall in A. split.
    - constructor; [|easy]. apply Forall_forall. intros y Y. apply A, in_or_app. now left.
    - intros v [<-|V]; [apply A, in_or_app; right; now left|auto]. }
  destruct Q as (Q & R). rewrite fold_left_app, (IH Q). cbn [fold_left rbind]. unfold add_member. cbn [the_index members].
  destruct (insert d0 d1 o true (history d0 d1 os)) as [[ok gone] index'] eqn:I.
  destruct (C217_answer d0 d1 os o true ok gone index' I) as (A & G & _).
  assert (O : ok = true) by (apply A; intros v V; now apply R). subst ok.
  assert (Z : gone = []).
  { destruct gone as [|e gone]; [easy|]. exfalso. assert (X : In e (e :: gone)) by (now left). apply (G eq_refl) in X as (X & C & _).
    apply (in_map obj) in X. apply (proj2 (C217_front d0 d1 os)) in X as (X & _). now apply (R (obj e) X). }
  subst gone. cbn [apply_modifs rbind members the_index]. unfold history at 1. rewrite fold_left_app. cbn [fold_left].
  change (fold_left (fun l o => snd (insert d0 d1 o true l)) os []) with (history d0 d1 os). rewrite I. reflexivity.
Qed.
(** A vector that the index refuses leaves the archive as it is, whatever the archive; the answer says whether the vector became a member. *)
Theorem C217_refused : forall d0 d1 o a ok a', add_member d0 d1 o a = Ok (ok, a') ->
  ok = fst (fst (insert d0 d1 o true (the_index a))) /\ (ok = false -> a' = a) /\ (ok = true -> exists m, members a' = m ++ [o]).
Proof.
  intros d0 d1 o [m i] ok a' H. unfold add_member in H. cbn [the_index members] in *.
  assert (K : forall gone index', insert d0 d1 o true i = (false, gone, index') -> index' = i).
  { intros gone index' E. unfold insert in E. destruct i as [|x i]; [inversion E|]. destruct (lower_bound d1 o (x :: i)) as [before from].
    destruct from as [|it from].
    - destruct (negb _); inversion E. reflexivity.
    - destruct (_ || _); [now inversion E|]. destruct (match last_of before with Some _ => _ | None => _ end); [now inversion E|].
      destruct (span _ _). inversion E. }
  destruct (insert d0 d1 o true i) as [[ok' gone] index'] eqn:E. destruct ok'; cbn [fst].
  - destruct (apply_modifs d1 gone _) as [x| | |]; cbn [rbind] in H; try easy. inversion H. subst. split; [easy|]. split; [easy|]. intros _. cbn [members]. eauto.
  - inversion H. subst. rewrite (K gone index' eq_refl). split; [easy|]. split; easy.
Qed.
Example C217_ex : map obj (history true true [(5, 5); (3, 3); (1, 4); (4, 4); (9, 0); (3, 3)]) = [(9, 0); (3, 3); (1, 4)] /\
  insert true true (2, 1) true (history true true [(3, 3); (1, 4); (9, 0)]) = (true, [Entry (3, 3) 0], [Entry (9, 0) 2; Entry (2, 1) 2; Entry (1, 4) 1]).
Proof. split; reflexivity. Qed.
Example C217_ex_hyps : ForallOrdPairs (fun a b => ~ covers true false a b /\ ~ covers true false b a) [(1, 1); (2, 2); (5, 9)].
Proof. repeat constructor; unfold covers, as_good; cbn; lia. Qed.

(** ** C218: the archive *)

(** The archive that uses the index can lose a solution that nothing dominates: the entry deleted from the end of the archive comes back in the index. *)
Theorem C218_loses_refuted : exists os members index,
  fold_left (fun r o => let! a := r in let! (_, a) := add_member true true o a in Ok a) os (Ok (Archive [] [])) = Ok (Archive members index) /\
  exists v, best_of true true os v /\ ~ In v members.
Proof.
  exists [(5, 5); (3, 3); (1, 4)], [(1, 4)]. eexists. split; [vm_compute; reflexivity|]. exists (3, 3). split.
  - split; [right; now left|]. intros w W ((A & B) & N). cbn in *. destruct W as [<-|[<-|[<-|[]]]]; cbn in *; try lia; try congruence.
  - intros [K|[]]. discriminate.
Qed.
(** Two deletions at once can reach past its end: the places that the index gives are not corrected after the first one. *)
Theorem C218_past_the_end_refuted : exists os,
  fold_left (fun r o => let! a := r in let! (_, a) := add_member true true o a in Ok a) os (Ok (Archive [] [])) = UB.
Proof. exists [(5, 3); (9, 1); (4, 5); (4, 3)]. vm_compute. reflexivity. Qed.
(** Whenever the only member is dominated, its vector stays in the index, next to the one that dominates it (or instead of it). *)
Theorem C218_ghost_refuted : forall d0 d1 a b, pareto_dominates d0 d1 b a ->
  exists index, (let! (_, x) := add_member d0 d1 a (Archive [] []) in let! (_, y) := add_member d0 d1 b x in Ok y) = Ok (Archive [b] index) /\ In a (map obj index).
Proof.
  intros d0 d1 a b D. pose proof D as D'. apply dominates_ok in D'. pose proof D' as D2. apply dominated_ok in D2.
  assert (E1 : by_last d1 a b = false) by (apply by_last_no; lia).
  assert (E2 : vec_eqb b a = false) by (destruct (vec_eqb b a) eqn:V; [apply vec_eqb_ok in V; subst; lia|easy]).
  assert (E3 : dominated d0 d1 b a = false) by (apply dominated_no; lia).
  assert (E4 : by_last d1 a a = false) by (apply by_last_no; lia).
  assert (A1 : add_member d0 d1 a (Archive [] []) = Ok (true, Archive [a] [Entry a 0])) by reflexivity. rewrite A1. cbn [rbind].
  assert (I : insert d0 d1 b true [Entry a 0] = (true, [Entry a 0], [Entry b 0])).
  { unfold insert. cbn [lower_bound obj]. rewrite E1. change (last_of []) with (@None entry). cbv iota beta zeta. cbn [obj]. rewrite E2, E3. cbn [orb].
    cbn [span obj]. rewrite D'. cbn [fold_left obj set_erase]. rewrite E4. reflexivity. }
  unfold add_member. cbn [the_index members]. rewrite I. cbn [apply_modifs rbind]. unfold apply_modif.
  cbn [members the_index length nth_error Nat.sub of_opt rbind indice upd obind firstn app].
  eexists. split; [reflexivity|]. unfold update. cbn [set_erase obj]. rewrite E1.
  destruct (by_last d1 b a) eqn:E5; cbn [negb andb set_insert obj map].
  - rewrite E1, E5. cbn. now right; left.
  - now left.
Qed.
Example C218_ex : pareto_dominates true true (3, 3) (5, 5) /\ best_of true true [(5, 5); (3, 3); (1, 4)] (3, 3).
Proof.
  split; [split; [split; cbn; lia|congruence]|]. split; [right; now left|]. intros w W ((A & B) & N). cbn in *.
  destruct W as [<-|[<-|[<-|[]]]]; cbn in *; try lia; try congruence.
Qed.
Print Assumptions C217_front.
Print Assumptions C217_answer.
Print Assumptions C217_asking.
Print Assumptions C217_order.
Print Assumptions C217_archive_of_incomparable.
Print Assumptions C218_loses_refuted.
Print Assumptions C218_past_the_end_refuted.
Print Assumptions C218_ghost_refuted.
Print Assumptions C217_refused.
