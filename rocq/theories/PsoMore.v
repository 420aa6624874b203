(** Neighborhoods keep their members; bounds; the arithmetic of velocities and flights; the ring topology *)
From Coq Require Import List Arith Bool Lia Permutation ZArith QArith Lqa.
From Verif Require Import Lib Outcome OrderSpec OrderLemmas PsoModel PsoSpec PsoProofs PsoSetup PsoRun.
From Coq Require Import List.
Import ListNotations.
Open Scope nat_scope.

Section Members.
Context {A V F : Type} (lt : F -> F -> bool) {W : Type}.
Variable velocity : list (hood A V F) -> particle A V F -> nat -> W -> res (list V * W).
Variable flight : particle A V F -> W -> res (list A * W).
Variable eval : list A -> F.
Notation swarm := (swarm A V F W).
Notation update := (linear_update A V F lt).
Notation over := (over A V F W).
Definition same_members (s s' : swarm) : Prop := map members (hoods s') = map members (hoods s).
Lemma velocity_members s k s' : step_velocity A V F W velocity s k = Ok s' -> same_members s s'.
Proof. intros H. apply rbind_ok in H as (p & _ & H). apply rbind_ok in H as ([v w] & _ & H). injection H as <-. reflexivity. Qed.
Lemma flight_members s k s' : step_flight A V F W flight s k = Ok s' -> same_members s s'.
Proof. intros H. apply rbind_ok in H as (p & _ & H). apply rbind_ok in H as ([v w] & _ & H). injection H as <-. reflexivity. Qed.
Lemma eval_members s k s' : step_eval A V F W eval s k = Ok s' -> same_members s s'.
Proof. intros H. apply rbind_ok in H as (p & _ & H). injection H as <-. reflexivity. Qed.
Lemma update_members s k s' : step_update A V F W update s k = Ok s' -> same_members s s'.
Proof.
  intros H. apply rbind_ok in H as (p & _ & H). apply rbind_ok in H as ([q hs] & Hu & H). injection H as <-.
  apply rbind_ok in Hu as (p1 & _ & Hu). apply rbind_ok in Hu as (hs1 & Hu & E). injection E as <- <-.
  apply rbind_ok in Hu as (h & Hh & Hu). apply of_opt_ok in Hh. apply rbind_ok in Hu as (v & _ & Hu). apply rbind_ok in Hu as (b & _ & Hu).
  injection Hu as <-. unfold same_members. cbn [hoods]. destruct (lt b v); auto.
  rewrite map_set. cbn [members]. apply set_same. rewrite nth_error_map', Hh. auto.
Qed.
Lemma over_members step ks : (forall s k s', step s k = Ok s' -> same_members s s') -> forall s s', over step ks s = Ok s' -> same_members s s'.
Proof.
  intros St. induction ks as [|k ks IH]; intros s s' H; cbn [PsoModel.over] in H.
  - injection H as <-. reflexivity.
  - apply rbind_ok in H as (s1 & H1 & H). apply IH in H. apply St in H1. unfold same_members in *. congruence.
Qed.
Lemma async_members s s' : async_turn A V F W velocity flight eval update s = Ok s' -> same_members s s'.
Proof.
  apply over_members. clear. intros s k s' H. apply rbind_ok in H as (s1 & H1 & H). apply rbind_ok in H as (s2 & H2 & H). apply rbind_ok in H as (s3 & H3 & H).
  apply velocity_members in H1. apply flight_members in H2. apply eval_members in H3. apply update_members in H. unfold same_members in *. congruence.
Qed.
Lemma sync_members s s' : sync_turn A V F W velocity flight eval update s = Ok s' -> same_members s s'.
Proof.
  intros H. apply rbind_ok in H as (s1 & H1 & H). apply rbind_ok in H as (s2 & H2 & H). apply rbind_ok in H as (s3 & H3 & H).
  apply over_members in H1; [|apply velocity_members]. apply over_members in H2; [|apply flight_members].
  apply over_members in H3; [|apply eval_members]. apply over_members in H; [|apply update_members]. unfold same_members in *. congruence.
Qed.
Lemma turns_members turn : (forall s s', turn s = Ok s' -> same_members s s') -> forall answers s s', turns A V F W turn answers s = Ok s' -> same_members s s'.
Proof.
  intros T. induction answers as [|[|] r IH]; intros s s' H; cbn [turns] in H; apply rbind_ok in H as (s1 & H1 & H); [discriminate| |].
  - apply IH in H. apply T in H1. unfold same_members in *. congruence.
  - injection H as <-. auto.
Qed.

(** every point evaluated by the turns comes from the flight *)
Variable P : list A -> Prop.
Hypothesis flies : forall p w x w', flight p w = Ok (x, w') -> P x.
Definition all_in (s : swarm) (k : nat) : Prop := forall p, nth_error (pop s) k = Some p -> P (pos p).
Lemma velocity_in s k s' : step_velocity A V F W velocity s k = Ok s' -> log s' = log s /\ forall j, all_in s j -> all_in s' j.
Proof.
  intros H. apply rbind_ok in H as (p & Hp & H). apply of_opt_ok in Hp. apply rbind_ok in H as ([v w] & _ & H). injection H as <-.
  split; auto. intros j Hj q Hq. cbn [pop] in Hq. rewrite nth_error_set in Hq.
  destruct (_ && _)%bool eqn:E; [|apply Hj; auto]. injection Hq as <-. apply andb_true_iff in E as [E _]. apply Nat.eqb_eq in E. subst. cbn. apply Hj; auto.
Qed.
Lemma flight_in s k s' : step_flight A V F W flight s k = Ok s' -> log s' = log s /\ all_in s' k /\ forall j, all_in s j -> all_in s' j.
Proof.
  intros H. apply rbind_ok in H as (p & Hp & H). apply of_opt_ok in Hp. apply rbind_ok in H as ([v w] & E1 & H). injection H as <-.
  split; auto. split.
  - intros q Hq. cbn [pop] in Hq. rewrite nth_error_set_eq in Hq by (eapply nth_error_lt; eauto). injection Hq as <-. cbn. eauto.
  - intros j Hj q Hq. cbn [pop] in Hq. rewrite nth_error_set in Hq. destruct (_ && _)%bool eqn:E; [|apply Hj; auto]. injection Hq as <-. cbn. eauto.
Qed.
Lemma eval_in s k s' : step_eval A V F W eval s k = Ok s' -> all_in s k ->
  (exists x, P x /\ log s' = log s ++ [(k, x)]) /\ forall j, all_in s j -> all_in s' j.
Proof.
  intros H Hk. apply rbind_ok in H as (p & Hp & H). apply of_opt_ok in Hp. injection H as <-. split.
  - exists (pos p). split; auto. 
  - intros j Hj q Hq. cbn [pop] in Hq. rewrite nth_error_set in Hq.
    destruct (_ && _)%bool eqn:E; [|apply Hj; auto]. injection Hq as <-. apply andb_true_iff in E as [E _]. apply Nat.eqb_eq in E. subst. cbn. apply Hj; auto.
Qed.
Lemma update_in s k s' : step_update A V F W update s k = Ok s' -> log s' = log s /\ forall j, all_in s j -> all_in s' j.
Proof.
  intros H. apply rbind_ok in H as (p & Hp & H). apply of_opt_ok in Hp. apply rbind_ok in H as ([q hs] & Hu & H). injection H as <-.
  apply rbind_ok in Hu as (p1 & Hb & Hu). apply rbind_ok in Hu as (hs1 & Hu & E). injection E as <- <-.
  assert (Ep : pos p1 = pos p).
  { unfold update_best in Hb. apply rbind_ok in Hb as (v & _ & Hb). apply rbind_ok in Hb as (b & _ & Hb).
    destruct (lt b v); [destruct (_ =? _)|]; try discriminate; injection Hb as <-; auto. }
  split; auto. intros j Hj q Hq. cbn [pop] in Hq. rewrite nth_error_set in Hq.
  destruct (_ && _)%bool eqn:E; [|apply Hj; auto]. injection Hq as <-. apply andb_true_iff in E as [E _]. apply Nat.eqb_eq in E. subst. rewrite Ep. apply Hj; auto.
Qed.
Definition new_in (s s' : swarm) : Prop := exists l, log s' = log s ++ l /\ forall e, In e l -> P (snd e).
Lemma new_in_refl s s' : log s' = log s -> new_in s s'.
Proof. exists []. rewrite app_nil_r. split; auto. intros e []. Qed.
Lemma new_in_trans s1 s2 s3 : new_in s1 s2 -> new_in s2 s3 -> new_in s1 s3.
Proof.
  intros (l & E & H) (l' & E' & H'). exists (l ++ l'). rewrite app_assoc. split; [congruence|].
  intros e He. apply in_app_or in He as [He|He]; auto.
Qed.
Lemma async_in s s' : async_turn A V F W velocity flight eval update s = Ok s' -> new_in s s'.
Proof.
  unfold async_turn. generalize (seq 0 (length (pop s))) as ks. intros ks. revert s s'. induction ks as [|k ks IH]; intros s s' H; cbn [PsoModel.over] in H.
  - injection H as <-. apply new_in_refl; auto.
  - apply rbind_ok in H as (s4 & H4 & H). apply IH in H.
    apply rbind_ok in H4 as (s1 & H1 & H4). apply rbind_ok in H4 as (s2 & H2 & H4). apply rbind_ok in H4 as (s3 & H3 & H4).
    apply velocity_in in H1 as [L1 _]. apply flight_in in H2 as (L2 & A2 & _). apply eval_in in H3 as ((x & Px & L3) & _); auto. apply update_in in H4 as [L4 _].
    eapply new_in_trans; [|apply H]. exists [(k, x)]. split; [congruence|]. intros e [<-|[]]. auto.
Qed.
Lemma sync_in s s' : sync_turn A V F W velocity flight eval update s = Ok s' -> new_in s s'.
Proof.
  unfold sync_turn. generalize (seq 0 (length (pop s))) as ks. intros ks H.
  apply rbind_ok in H as (s1 & H1 & H). apply rbind_ok in H as (s2 & H2 & H). apply rbind_ok in H as (s3 & H3 & H).
  assert (L1 : log s1 = log s). { clear -H1 P. revert s s1 H1. induction ks as [|k ks IH]; intros s s1 H1; cbn [PsoModel.over] in H1; [injection H1 as <-; auto|].
    apply rbind_ok in H1 as (s' & H & H1). apply IH in H1. apply velocity_in in H. destruct H. congruence. }
  assert (L2 : log s2 = log s1 /\ forall k, In k ks \/ all_in s1 k -> all_in s2 k).
  { clear -H2 flies. revert s1 s2 H2. induction ks as [|k ks IH]; intros s s1 H1; cbn [PsoModel.over] in H1; [injection H1 as <-; split; auto; intros k [[]|]; auto|].
    apply rbind_ok in H1 as (s' & H & H1). apply IH in H1 as [L1 A1]. apply flight_in in H as (L2 & A2 & A3). split; [congruence|].
    intros j [[<-|Hj]|Hj]; apply A1; auto. }
  destruct L2 as [L2 A2].
  assert (L3 : new_in s2 s3).
  { assert (A2' : forall k, In k ks -> all_in s2 k) by auto. clear -H3 A2' P. revert s2 s3 H3 A2'. induction ks as [|k ks IH]; intros s s1 H1 A2; cbn [PsoModel.over] in H1; [injection H1 as <-; apply new_in_refl; auto|].
    apply rbind_ok in H1 as (s' & H & H1). apply eval_in in H as ((x & Px & L) & A3); [|apply A2; left; auto].
    apply IH in H1; [|intros; apply A3, A2; right; auto]. eapply new_in_trans; [|apply H1]. exists [(k, x)]. split; auto. intros e [<-|[]]; auto. }
  assert (L4 : log s' = log s3). { clear -H P. revert s3 s' H. induction ks as [|k ks IH]; intros s s1 H1; cbn [PsoModel.over] in H1; [injection H1 as <-; auto|].
    apply rbind_ok in H1 as (s' & H & H1). apply IH in H1. apply update_in in H. destruct H. congruence. }
  destruct L3 as (l & E & Hl). exists l. split; auto. congruence.
Qed.
Lemma turns_in turn : (forall s s', turn s = Ok s' -> new_in s s') -> forall answers s s', turns A V F W turn answers s = Ok s' -> new_in s s'.
Proof.
  intros T. induction answers as [|[|] r IH]; intros s s' H; cbn [turns] in H; apply rbind_ok in H as (s1 & H1 & H); [discriminate| |].
  - apply IH in H. apply T in H1. eapply new_in_trans; eauto.
  - injection H as <-. auto.
Qed.
End Members.

(** *** velocities and flights *)
Section Real.
Context {F : Type}.
Variable bounds : nat -> option Q * option Q.
Notation particle := (particle Q Q F).
Lemma check_ok j x : consistent (fst (bounds j)) (snd (bounds j)) -> brought_back (fst (bounds j)) (snd (bounds j)) x (check bounds j x).
Proof.
  unfold check, consistent, brought_back, std_max, std_min. destruct (bounds j) as [[lo|] [hi|]]; cbn [fst snd]; intros C.
  - specialize (C lo hi eq_refl eq_refl). repeat split; intros; repeat match goal with H : Some _ = Some _ |- _ => injection H as <- end;
      try specialize (H lo eq_refl); try specialize (H0 hi eq_refl);
      repeat match goal with |- context [Qlt_le_dec ?a ?b] => destruct (Qlt_le_dec a b) | H : context [Qlt_le_dec ?a ?b] |- _ => destruct (Qlt_le_dec a b) end; try lra; try (exfalso; lra); auto.
  - repeat split; intros; try discriminate; repeat match goal with H : Some _ = Some _ |- _ => injection H as <- end;
      try specialize (H lo eq_refl);
      repeat match goal with |- context [Qlt_le_dec ?a ?b] => destruct (Qlt_le_dec a b) | H : context [Qlt_le_dec ?a ?b] |- _ => destruct (Qlt_le_dec a b) end; try lra; try (exfalso; lra); auto.
  - repeat split; intros; try discriminate; repeat match goal with H : Some _ = Some _ |- _ => injection H as <- end;
      try specialize (H0 hi eq_refl);
      repeat match goal with |- context [Qlt_le_dec ?a ?b] => destruct (Qlt_le_dec a b) | H : context [Qlt_le_dec ?a ?b] |- _ => destruct (Qlt_le_dec a b) end; try lra; try (exfalso; lra); auto.
  - repeat split; intros; try discriminate; auto.
Qed.
Lemma for_each_ok f xs : forall j l, for_each j xs f = Ok l -> length l = length xs /\
  forall i x, nth_error xs i = Some x -> exists y, nth_error l i = Some y /\ f (j + i) x = Ok y.
Proof.
  induction xs as [|x xs IH]; intros j l H; cbn [for_each] in H.
  - injection H as <-. split; auto. intros [|i] x; discriminate.
  - apply rbind_ok in H as (y & Hy & H). apply rbind_ok in H as (l' & Hl & H). injection H as <-. apply IH in Hl as [E Hl].
    split; [cbn; auto|]. intros [|i] z Hz; cbn in *.
    + injection Hz as <-. exists y. rewrite Nat.add_0_r. auto.
    + destruct (Hl i z Hz) as (w & Hw & Ef). exists w. split; auto. replace (j + S i) with (S j + i) by lia. auto.
Qed.
Lemma for_each_total f xs : forall j, (forall i x, nth_error xs i = Some x -> exists y, f (j + i) x = Ok y) -> exists l, for_each j xs f = Ok l.
Proof.
  induction xs as [|x xs IH]; intros j H; cbn [for_each]; eauto.
  destruct (H 0 x eq_refl) as (y & E). rewrite Nat.add_0_r in E. rewrite E. cbn [rbind].
  destruct (IH (S j)) as (l & El). { intros i z Hz. replace (S j + i) with (j + S i) by lia. apply H. auto. }
  rewrite El. cbn [rbind]. eauto.
Qed.
Definition formula (omega coeff r1 r2 r3 : Q) (p lb gb : particle) (j : nat) (y : Q) : Prop :=
  exists v b l g x, nth_error (vel p) j = Some v /\ nth_error (bpos p) j = Some b /\ nth_error (pos lb) j = Some l /\
    nth_error (pos gb) j = Some g /\ nth_error (pos p) j = Some x /\
    y = (coeff * (omega * v + r1 * (b - x) + r2 * (l - x) + r3 * (g - x)))%Q.
Lemma velocities_ok omega coeff r1 r2 r3 p lb gb l : length (vel p) = length (pos p) ->
  velocities F p (fun j x => let! v := raw F omega coeff r1 r2 r3 p lb gb j x in Ok (check bounds j v)) = Ok l ->
  length l = length (pos p) /\ forall j, j < length (pos p) -> exists y z, nth_error l j = Some z /\ formula omega coeff r1 r2 r3 p lb gb j y /\ z = check bounds j y.
Proof.
  intros El H. apply rbind_ok in H as (l0 & H & E). injection E as <-. apply for_each_ok in H as [L H].
  rewrite skipn_all2 by lia. rewrite app_nil_r. split; auto. intros j Hj.
  destruct (nth_error (pos p) j) as [x|] eqn:Ex; [|apply nth_error_None in Ex; lia].
  destruct (H j x Ex) as (z & Hz & Ef). apply rbind_ok in Ef as (y & Ey & E). injection E as <-. cbn [Nat.add] in *.
  exists y, (check bounds j y). split; auto. split; auto.
  unfold raw in Ey. apply rbind_ok in Ey as (v & Hv & Ey). apply rbind_ok in Ey as (b & Hb & Ey). apply rbind_ok in Ey as (lv & Hl & Ey). apply rbind_ok in Ey as (g & Hg & Ey).
  apply of_opt_ok in Hv, Hb, Hl, Hg. injection Ey as <-. exists v, b, lv, g, x. repeat split; auto.
Qed.
Lemma some_nth {X} (l : list X) j : j < length l -> exists x, nth_error l j = Some x.
Proof. intros H. destruct (nth_error l j) eqn:E; eauto. apply nth_error_None in E. lia. Qed.
Lemma velocities_total omega coeff r1 r2 r3 (p lb gb : particle) : length (vel p) = length (pos p) -> length (bpos p) = length (pos p) ->
  length (pos lb) = length (pos p) -> length (pos gb) = length (pos p) ->
  exists l, velocities F p (fun j x => let! v := raw F omega coeff r1 r2 r3 p lb gb j x in Ok (check bounds j v)) = Ok l.
Proof.
  intros E1 E2 E3 E4. unfold velocities.
  match goal with |- context [for_each 0 (pos p) ?g] => destruct (for_each_total g (pos p) 0) as (l & El) end.
  - intros i x Hx. assert (Hi := nth_error_lt _ _ _ Hx). cbn [Nat.add]. unfold raw.
    destruct (some_nth (vel p) i) as (v & ->); [lia|]. destruct (some_nth (bpos p) i) as (b & ->); [lia|].
    destruct (some_nth (pos lb) i) as (c & ->); [lia|]. destruct (some_nth (pos gb) i) as (g & ->); [lia|]. cbn [of_opt rbind]. eauto.
  - rewrite El. cbn [rbind]. eauto.
Qed.
Lemma flight_ok (p : particle) l : standard_flight F bounds p = Ok l -> length l = length (pos p) /\
  forall j x, nth_error (pos p) j = Some x -> exists v, nth_error (vel p) j = Some v /\ nth_error l j = Some (check bounds j (x + v)%Q).
Proof.
  intros H. apply for_each_ok in H as [L H]. split; auto. intros j x Hx. destruct (H j x Hx) as (y & Hy & E).
  apply rbind_ok in E as (v & Hv & E). apply of_opt_ok in Hv. injection E as <-. exists v. auto.
Qed.
Lemma flight_total (p : particle) : length (vel p) = length (pos p) -> exists l, standard_flight F bounds p = Ok l.
Proof.
  intros E. apply for_each_total. intros i x Hx. assert (Hi := nth_error_lt _ _ _ Hx). cbn [Nat.add].
  destruct (some_nth (vel p) i) as (v & ->); [lia|]. cbn. eauto.
Qed.
End Real.

(** *** the ring topology's update *)
Lemma ring_range_empty size : (2 <= size <= 2 ^ 31)%Z -> ring_range size = [].
Proof.
  intros H. unfold ring_range, ring_start.
  assert (E : ((1 - size) mod 2 ^ 32 = 2 ^ 32 + 1 - size)%Z).
  { rewrite <- (Z_mod_plus_full (1 - size) 1 (2 ^ 32)). rewrite Z.mod_small; lia. }
  rewrite E. replace (Z.to_nat (size - (2 ^ 32 + 1 - size))) with 0; auto.
  destruct (Z.to_nat (size - (2 ^ 32 + 1 - size))) eqn:X; auto. lia.
Qed.
