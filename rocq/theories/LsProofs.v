(** Proofs about the local searches: the loop, the scan of a neighborhood, the hill climbers. *)
From Coq Require Import List Arith Bool Lia.
From Verif Require Import Outcome Lib OrderSpec NeighModel LsModel LsSpec.
Import ListNotations.
Open Scope nat_scope.

Lemma chain_cons {T} (R : T -> T -> Prop) a b l : R a b -> chain R (b :: l) -> chain R (a :: b :: l).
Proof. intros H C [|k] x y; cbn; intros Hx Hy; [congruence|]. exact (C k x y Hx Hy). Qed.
Lemma chain_one {T} (R : T -> T -> Prop) a : chain R [a].
Proof. intros [|[|k]] x y; cbn; intros Hx Hy; discriminate. Qed.
Lemma climbs_cons {T} (R : T -> T -> Prop) a b l : R a b -> climbs R (b :: l) -> climbs R (a :: b :: l).
Proof. intros H C [|k] x y; cbn; intros Hx Hy; [left; congruence|]. destruct (C k x y Hx Hy) as [?|[? E]]; [left; auto|right; split; auto; cbn in E; lia]. Qed.
Lemma chain_weak {T} (R R' : T -> T -> Prop) l : (forall a b, R a b -> R' a b) -> chain R l -> chain R' l.
Proof. intros H C k a b Ha Hb. eauto. Qed.
(** along a chain of a transitive relation, the first element is related to every later one *)
Lemma chain_first {T} (R : T -> T -> Prop) : (forall a, R a a) -> (forall a b c, R a b -> R b c -> R a c) ->
  forall l a, chain R (a :: l) -> forall b, In b (a :: l) -> R a b.
Proof.
  intros HR HT. induction l as [|c l IH]; intros a C b [->|Hb]; auto; [destruct Hb|].
  apply (HT a c b). { apply (C 0); reflexivity. }
  apply IH; auto. intros k x y Hx Hy. apply (C (S k)); auto.
Qed.

Section Loop.
Variables (T X C : Type) (e : explorer T X) (c : continuator T C).
Variable P : T -> X -> Prop.
Lemma loop_chain (R : T -> T -> Prop) (Stop : T -> X -> Prop) :
  (forall s x ds b s' x' ds', P s x -> ls_turn T X e s x ds = Ok (b, s', x', ds') -> P s' x' /\ R s s' /\ (x_continue e s' x' = false -> Stop s' x')) ->
  forall fuel s x cs ds r, P s x -> ls_loop T X C e c fuel s x cs ds = Ok r ->
    chain R (s :: r_visited r) /\ exists s' x', P s' x' /\ last (r_visited r) s = s' /\ r_visited r <> [] /\ r_x r = x' /\
      r_final r = x_terminate e s' x' /\ (r_by_itself r = true -> Stop s' x') /\ Forall (fun t => exists y, P t y) (r_visited r).
Proof.
  intros HT. induction fuel as [|f IH]; intros s x cs ds r HP H; [discriminate|]. cbn [ls_loop] in H.
  apply rbind_ok in H as ([[[b s'] x'] ds'] & Ht & H). destruct (HT _ _ _ _ _ _ _ HP Ht) as (HP' & HR & HS).
  destruct (c_step c s' cs) as [go cs']. destruct (go && x_continue e s' x') eqn:E.
  - apply rbind_ok in H as (r' & Hr & H). injection H as <-. cbn.
    destruct (IH _ _ _ _ _ HP' Hr) as (Hc & s2 & x2 & A1 & A2 & A3 & A4 & A5 & A6 & A7).
    split; [apply chain_cons; auto|]. exists s2, x2. repeat split; auto; try discriminate.
    + destruct (r_visited r') eqn:Ev; [destruct A3; reflexivity|]. rewrite <- A2. cbn. clear. revert t s s'. induction l; intros; auto. cbn. apply (IHl a).
    + constructor; eauto.
  - injection H as <-. cbn. split; [apply chain_cons; auto using chain_one|]. exists s', x'. repeat split; auto; try discriminate.
    + intros ->. destruct (x_continue e s' x') eqn:E2; [discriminate|auto].
    + constructor; eauto.
Qed.
Lemma loop_climbs (R : T -> T -> Prop) :
  (forall s x ds b s' x' ds', P s x -> ls_turn T X e s x ds = Ok (b, s', x', ds') -> P s' x' /\ (R s s' \/ (s' = s /\ x_continue e s' x' = false))) ->
  forall fuel s x cs ds r, P s x -> ls_loop T X C e c fuel s x cs ds = Ok r -> climbs R (s :: r_visited r).
Proof.
  intros HT. induction fuel as [|f IH]; intros s x cs ds r HP H; [discriminate|]. cbn [ls_loop] in H.
  apply rbind_ok in H as ([[[b s'] x'] ds'] & Ht & H). destruct (HT _ _ _ _ _ _ _ HP Ht) as (HP' & HR).
  destruct (c_step c s' cs) as [go cs']. destruct (go && x_continue e s' x') eqn:E.
  - apply rbind_ok in H as (r' & Hr & H). injection H as <-. cbn. apply andb_prop in E as [_ E].
    destruct HR as [HR|[_ HR]]; [|congruence]. apply climbs_cons; eauto.
  - injection H as <-. cbn. intros [|[|k]] a b0; cbn; intros Ha Hb; try discriminate.
    injection Ha as <-. injection Hb as <-. destruct HR as [HR|[HR _]]; auto.
Qed.
Lemma loop_total (mu : T -> X -> nat) (cost : nat) :
  (forall s x ds, P s x -> cost <= length ds -> exists b s' x' ds', ls_turn T X e s x ds = Ok (b, s', x', ds') /\ P s' x' /\
     length ds <= cost + length ds' /\ (x_continue e s' x' = true -> mu s' x' < mu s x)) ->
  forall fuel s x cs ds, P s x -> mu s x < fuel -> fuel * cost <= length ds -> exists r, ls_loop T X C e c fuel s x cs ds = Ok r.
Proof.
  intros HT. induction fuel as [|f IH]; intros s x cs ds HP Hm Hd; [lia|]. cbn [ls_loop]. cbn in Hd.
  destruct (HT s x ds HP ltac:(lia)) as (b & s' & x' & ds' & -> & HP' & Hl & Hmu). cbn [rbind].
  destruct (c_step c s' cs) as [go cs']. destruct (go && x_continue e s' x') eqn:E; [|eexists; reflexivity].
  apply andb_prop in E as [_ E]. destruct (IH s' x' cs' ds' HP') as [r Hr]; [specialize (Hmu E); lia|lia|].
  rewrite Hr. cbn. eauto.
Qed.
End Loop.

Section Scan.
Variables (G F S I : Type) (Sp : G -> Prop) (nbrs : G -> list I) (has : G -> bool) (nh : G -> iterator S I).
Variables (Inv : S -> Prop) (Prog : G -> S -> Prop) (xfuel cost : nat).
Variables (full : G -> F) (neval : sol G F -> I -> res F) (move : I -> G -> res G).
Hypothesis NH : neighborhood_ok Sp nbrs has nh Inv Prog xfuel cost.
Hypothesis MV : moves_ok Sp nbrs full neval move.
Notation sol := (sol G F).

Fixpoint fold_eval {A} (s : sol) (step : A -> I * F -> res A) (a : A) (xs : list I) : res A :=
  match xs with
  | [] => Ok a
  | i :: r => let! f := neval s i in let! a' := step a (i, f) in fold_eval s step a' r
  end.
Lemma scan_spec {A} stop (step : A -> I * F -> res A) s : Sp (geno s) -> forall fuel a n ds a' n' ds', Prog (geno s) n ->
  scan G F S I nh neval stop step fuel s a n ds = Ok (a', n', ds') ->
  exists xs, incl xs (nbrs (geno s)) /\ Prog (geno s) n' /\ fold_eval s step a xs = Ok a' /\ length ds' <= length ds /\
    (stop a' = true \/ continue (nh (geno s)) fuel n ds = Ok (xs, n', ds')).
Proof.
  intros HS. induction fuel as [|f IH]; intros a n ds a' n' ds' HP H; cbn [scan] in H; destruct (stop a) eqn:Es.
  1,3: injection H as <- <- <-; exists []; cbn; repeat split; auto; intros ? [].
  - destruct (i_cont (nh (geno s)) n) eqn:Ec; [discriminate|]. injection H as <- <- <-. exists []. cbn. rewrite Ec. repeat split; auto. intros ? [].
  - destruct (i_cont (nh (geno s)) n) eqn:Ec.
    2: { injection H as <- <- <-. exists []. cbn. rewrite Ec. repeat split; auto. intros ? []. }
    apply rbind_ok in H as ([[n1 i] ds1] & Hn & H). apply rbind_ok in H as (fv & He & H). apply rbind_ok in H as (a1 & Hst & H).
    destruct (nh_next _ _ _ _ _ _ _ _ NH _ _ _ _ _ _ HS HP Ec Hn) as (HP1 & Hi & Hl).
    destruct (IH _ _ _ _ _ _ HP1 H) as (xs & X1 & X2 & X3 & X4 & X5). exists (i :: xs). split; [|split; [|split; [|split]]]; auto.
    + intros j [<-|Hj]; auto.
    + cbn. rewrite He. cbn. rewrite Hst. cbn. auto.
    + lia.
    + destruct X5 as [X5|X5]; auto. right. cbn. rewrite Ec, Hn. cbn. rewrite X5. reflexivity.
Qed.
Lemma scan_total {A} stop (step : A -> I * F -> res A) s (K : A -> Prop) : Sp (geno s) ->
  (forall a i, K a -> In i (nbrs (geno s)) -> exists f a', neval s i = Ok f /\ step a (i, f) = Ok a' /\ K a') ->
  forall fuel a n ds xs n' ds', Prog (geno s) n -> K a -> continue (nh (geno s)) fuel n ds = Ok (xs, n', ds') ->
  exists a' n'' ds'', scan G F S I nh neval stop step fuel s a n ds = Ok (a', n'', ds'') /\ length ds' <= length ds'' /\ K a'.
Proof.
  intros HS Hst. induction fuel as [|f IH]; intros a n ds xs n' ds' HP HK H; cbn [continue] in H; cbn [scan].
  - destruct (i_cont (nh (geno s)) n) eqn:Ec; [discriminate|]. injection H as <- <- <-. destruct (stop a); do 3 eexists; repeat split; eauto.
  - destruct (i_cont (nh (geno s)) n) eqn:Ec.
    2: { injection H as <- <- <-. destruct (stop a); do 3 eexists; repeat split; eauto. }
    apply rbind_ok in H as ([[n1 i] ds1] & Hn & H). apply rbind_ok in H as ([[xs1 n2] ds2] & Hc & H). injection H as <- <- <-.
    destruct (nh_next _ _ _ _ _ _ _ _ NH _ _ _ _ _ _ HS HP Ec Hn) as (HP1 & Hi & Hl).
    destruct (stop a) eqn:Es.
    + do 3 eexists. repeat split; eauto. revert Hc HP1 Hl. clear - NH HS. revert n1 ds1 xs1.
      assert (forall n1 ds1 xs1, continue (nh (geno s)) f n1 ds1 = Ok (xs1, n2, ds2) -> Prog (geno s) n1 -> length ds2 <= length ds1).
      { induction f; intros n1 ds1 xs1 H HP; cbn [continue] in H; destruct (i_cont (nh (geno s)) n1) eqn:Ec; try discriminate; try (injection H as <- <- <-; lia).
        apply rbind_ok in H as ([[n3 i] ds3] & Hn & H). apply rbind_ok in H as ([[xs3 n4] ds4] & Hc & H). injection H as <- <- <-.
        destruct (nh_next _ _ _ _ _ _ _ _ NH _ _ _ _ _ _ HS HP Ec Hn) as (HP1 & _ & Hl). specialize (IHf _ _ _ Hc HP1). lia. }
      intros n1 ds1 xs1 H1 H2 H3. specialize (H _ _ _ H1 H2). lia.
    + rewrite Hn. cbn. destruct (Hst a i HK Hi) as (fv & a' & E1 & E2 & HK'). rewrite E1. cbn. rewrite E2. cbn.
      destruct (IH _ _ _ _ _ _ HP1 HK' Hc) as (a2 & n3 & ds3 & E3 & Hl3 & HK3). rewrite E3. eauto 8.
Qed.
(** a neighbor of [s] with its true evaluation *)
Definition good (s : sol) (p : I * F) : Prop :=
  In (fst p) (nbrs (geno s)) /\ exists g', move (fst p) (geno s) = Ok g' /\ Sp g' /\ snd p = full g'.
Lemma neval_good s i : Sp (geno s) -> evaluated full s -> In i (nbrs (geno s)) -> exists f, neval s i = Ok f /\ good s (i, f).
Proof.
  intros HS HE Hi. destruct s as [g o]. unfold evaluated in HE. cbn in *. subst o. destruct (MV g i HS Hi) as (g' & Hm & Hg & He).
  exists (full g'). split; auto. split; cbn; eauto.
Qed.
Lemma neval_good' s i f : Sp (geno s) -> evaluated full s -> In i (nbrs (geno s)) -> neval s i = Ok f -> good s (i, f).
Proof. intros HS HE Hi H. destruct (neval_good s i HS HE Hi) as (f' & H' & Hg). congruence. Qed.
Lemma good_eq s i f f' : good s (i, f) -> good s (i, f') -> f = f'.
Proof. intros [_ (g & A & _ & B)] [_ (g' & A' & _ & B')]. cbn in *. rewrite A in A'. injection A' as <-. congruence. Qed.
Lemma fold_inv {A} s (step : A -> I * F -> res A) (Q : A -> list I -> Prop) : Sp (geno s) -> evaluated full s ->
  (forall a seen i f a', Q a seen -> good s (i, f) -> step a (i, f) = Ok a' -> Q a' (seen ++ [i])) ->
  forall xs a seen a', Q a seen -> incl xs (nbrs (geno s)) -> fold_eval s step a xs = Ok a' -> Q a' (seen ++ xs).
Proof.
  intros HS HE Hst. induction xs as [|i xs IH]; intros a seen a' HQ Hin H; cbn in H.
  - injection H as <-. rewrite app_nil_r. auto.
  - apply rbind_ok in H as (f & Hf & H). apply rbind_ok in H as (a1 & Ha & H).
    replace (seen ++ i :: xs) with ((seen ++ [i]) ++ xs) by (rewrite <- app_assoc; reflexivity).
    apply (IH a1); auto. { apply (Hst a seen i f); auto. apply neval_good'; auto. apply Hin; left; auto. }
    intros j Hj. apply Hin. right. auto.
Qed.
Lemma scan_until (st : F -> bool) s : Sp (geno s) -> evaluated full s -> forall fuel a n ds a' n' ds', Prog (geno s) n -> good s a ->
  scan G F S I nh neval (fun a => st (snd a)) (fun _ p => Ok p) fuel s a n ds = Ok (a', n', ds') ->
  good s a' /\ Prog (geno s) n' /\ length ds' <= length ds /\
  (st (snd a') = false -> exists ys, continue (nh (geno s)) fuel n ds = Ok (ys, n', ds') /\
     forall j f, In j (fst a :: ys) -> good s (j, f) -> st f = false).
Proof.
  intros HS HE. induction fuel as [|f IH]; intros a n ds a' n' ds' HP Ha H; cbn [scan] in H; destruct (st (snd a)) eqn:Es.
  1,3: injection H as <- <- <-; repeat split; try apply Ha; auto; congruence.
  - destruct (i_cont (nh (geno s)) n) eqn:Ec; [discriminate|]. injection H as <- <- <-. split; [auto|split; [auto|split; [auto|]]]. intros _. exists []. cbn. rewrite Ec. split; auto.
    intros j fj [<-|[]] Hg. destruct a as [i0 f0]. cbn in *. rewrite <- (good_eq s i0 f0 fj Ha Hg). auto.
  - destruct (i_cont (nh (geno s)) n) eqn:Ec.
    2: { injection H as <- <- <-. split; [auto|split; [auto|split; [auto|]]]. intros _. exists []. cbn. rewrite Ec. split; auto.
      intros j fj [<-|[]] Hg. destruct a as [i0 f0]. cbn in *. rewrite <- (good_eq s i0 f0 fj Ha Hg). auto. }
    apply rbind_ok in H as ([[n1 i] ds1] & Hn & H). apply rbind_ok in H as (fv & He & H). cbn [rbind] in H.
    destruct (nh_next _ _ _ _ _ _ _ _ NH _ _ _ _ _ _ HS HP Ec Hn) as (HP1 & Hi & Hl).
    destruct (IH (i, fv) n1 ds1 a' n' ds' HP1 (neval_good' s i fv HS HE Hi He) H) as (Y1 & Y2 & Y3 & Y4).
    split; auto. split; auto. split; [lia|]. intros Hs. destruct (Y4 Hs) as (ys & Y5 & Y6).
    exists (i :: ys). cbn. rewrite Ec, Hn. cbn. rewrite Y5. split; auto. cbn in Y6. intros j fj [<-|Hj] Hg; [|apply (Y6 j); auto].
    destruct a as [i0 f0]. cbn in *. rewrite <- (good_eq s i0 f0 fj Ha Hg). auto.
Qed.
(** a scan keeps an invariant of the accumulator and of what has been seen, given that it has not
    stopped yet; the exploration can be continued after it *)
Lemma scan_inv {A} stop (step : A -> I * F -> res A) s (Q : A -> list I -> Prop) : Sp (geno s) -> evaluated full s ->
  (forall a seen i f a', stop a = false -> Q a seen -> good s (i, f) -> step a (i, f) = Ok a' -> Q a' (seen ++ [i])) ->
  forall fuel a seen n ds a' n' ds', Prog (geno s) n -> Q a seen ->
  scan G F S I nh neval stop step fuel s a n ds = Ok (a', n', ds') ->
  exists xs, Q a' (seen ++ xs) /\ Prog (geno s) n' /\ length ds' <= length ds /\ (stop a' = true \/ i_cont (nh (geno s)) n' = false) /\
    forall k ys n2 ds2, continue (nh (geno s)) k n' ds' = Ok (ys, n2, ds2) -> exists k', continue (nh (geno s)) k' n ds = Ok (xs ++ ys, n2, ds2).
Proof.
  intros HS HE Hst. induction fuel as [|f IH]; intros a seen n ds a' n' ds' HP HQ H; cbn [scan] in H; destruct (stop a) eqn:Es.
  1,3: injection H as <- <- <-; exists []; rewrite app_nil_r; repeat split; auto; intros k ys n2 ds2 Hc; exists k; auto.
  - destruct (i_cont (nh (geno s)) n) eqn:Ec; [discriminate|]. injection H as <- <- <-. exists []. rewrite app_nil_r. repeat split; auto. intros k ys n2 ds2 Hc; exists k; auto.
  - destruct (i_cont (nh (geno s)) n) eqn:Ec.
    2: { injection H as <- <- <-. exists []. rewrite app_nil_r. repeat split; auto. intros k ys n2 ds2 Hc; exists k; auto. }
    apply rbind_ok in H as ([[n1 i] ds1] & Hn & H). apply rbind_ok in H as (fv & He & H). apply rbind_ok in H as (a1 & Ha1 & H).
    destruct (nh_next _ _ _ _ _ _ _ _ NH _ _ _ _ _ _ HS HP Ec Hn) as (HP1 & Hi & Hl).
    destruct (IH a1 (seen ++ [i]) n1 ds1 a' n' ds' HP1) as (xs & X1 & X2 & X3 & X4 & X5); auto.
    { apply (Hst a seen i fv); auto. apply neval_good'; auto. }
    exists (i :: xs). rewrite <- app_assoc in X1. split; [exact X1|]. split; auto. split; [lia|]. split; auto.
    intros k ys n2 ds2 Hc. destruct (X5 k ys n2 ds2 Hc) as (k' & Hk). exists (Datatypes.S k'). cbn [continue app]. rewrite Ec, Hn. cbn [rbind]. rewrite Hk. reflexivity.
Qed.
(** start: what init and the first evaluation give *)
Lemma start_spec s n ds p n' ds' : Sp (geno s) -> evaluated full s -> has (geno s) = true -> Inv n ->
  start G F S I nh neval s n ds = Ok (p, n', ds') ->
  i_init (nh (geno s)) n ds = Ok (n', fst p, ds') /\ good s p /\ Prog (geno s) n' /\ length ds' <= length ds.
Proof.
  intros HS HE Hh HI H. unfold start in H. apply rbind_ok in H as ([[n1 i] ds1] & Hi & H). apply rbind_ok in H as (f & Hf & H).
  injection H as <- <- <-. destruct (nh_init _ _ _ _ _ _ _ _ NH _ _ _ _ _ _ HS Hh HI Hi) as (A & B & D). repeat split; auto; apply neval_good'; auto.
Qed.
(** a full scan after start has seen every neighbor *)
Lemma explore_all (s : sol) n0 ds0 p n ds xs n' ds' k : Sp (geno s) -> has (geno s) = true -> Inv n0 ->
  i_init (nh (geno s)) n0 ds0 = Ok (n, fst p, ds) -> continue (nh (geno s)) k n ds = Ok (xs, n', ds') -> incl (nbrs (geno s)) (@fst I F p :: xs).
Proof.
  intros HS Hh HI Hi Hc. apply (nh_all _ _ _ _ _ _ _ _ NH k (geno s) n0 ds0 (fst p :: xs) n' ds'); auto. unfold explore. rewrite Hi. cbn. rewrite Hc. reflexivity.
Qed.
(** start is possible, and so is a full exploration after it *)
Lemma start_total s n ds : Sp (geno s) -> evaluated full s -> has (geno s) = true -> Inv n -> cost <= length ds ->
  exists p n' ds' xs n'' ds'', start G F S I nh neval s n ds = Ok (p, n', ds') /\ continue (nh (geno s)) xfuel n' ds' = Ok (xs, n'', ds'') /\ length ds <= cost + length ds''.
Proof.
  intros HS HE Hh HI Hd. destruct (nh_total _ _ _ _ _ _ _ _ NH _ _ _ HS Hh HI Hd) as (l & n2 & ds2 & H & Hl).
  unfold explore in H. apply rbind_ok in H as ([[n1 i] ds1] & Hi & H). apply rbind_ok in H as ([[xs n3] ds3] & Hc & H). injection H as <- <- <-.
  destruct (nh_init _ _ _ _ _ _ _ _ NH _ _ _ _ _ _ HS Hh HI Hi) as (A & B & D).
  destruct (neval_good s i HS HE B) as (f & Hf & _). exists (i, f), n1, ds1, xs, n3, ds3. unfold start. rewrite Hi. cbn. rewrite Hf. auto.
Qed.
Lemma has_false (s : sol) : Sp (geno s) -> has (geno s) = false -> nbrs (geno s) = [].
Proof.
  intros HS H. destruct (nh_has _ _ _ _ _ _ _ _ NH _ HS) as [A B]. destruct (nbrs (geno s)); auto. rewrite B in H; discriminate.
Qed.
End Scan.

(** ** hill climbing *)
Section Climb.
Variables (G F S I : Type) (lt : F -> F -> bool) (Sp : G -> Prop) (nbrs : G -> list I) (has : G -> bool) (nh : G -> iterator S I).
Variables (Inv : S -> Prop) (Prog : G -> S -> Prop) (xfuel cost : nat).
Variables (full : G -> F) (neval : sol G F -> I -> res F) (move : I -> G -> res G).
Hypothesis LT : strict_weak_order lt.
Hypothesis NH : neighborhood_ok Sp nbrs has nh Inv Prog xfuel cost.
Hypothesis MV : moves_ok Sp nbrs full neval move.
Notation sol := (sol G F).
Notation good := (good G F I Sp nbrs full move).
Notation simple := (simple_hc G F S I lt has nh neval move xfuel).
Notation first := (first_hc G F S I lt has nh neval move xfuel).

Definition hc_ok (s : sol) (x : hc F S I) : Prop := Sp (geno s) /\ evaluated full s /\ Inv (h_nh F S I x).

Lemma good_not_better s p : evaluated full s -> good s p -> better G F I lt s p = Ok (lt (full (geno s)) (snd p)).
Proof. intros HE _. unfold better, fitness. rewrite HE. reflexivity. Qed.
Lemma good_move s p : good s p -> exists g', neighbor nbrs move (geno s) g' /\ Sp g' /\ snd p = full g' /\ move_to G F I move p s = Ok (Sol g' (Some (full g'))).
Proof.
  intros [Hi (g' & Hm & Hg & Hf)]. exists g'. split; [exists (fst p); auto|]. split; auto. split; auto. unfold move_to. rewrite Hm. cbn. rewrite Hf. reflexivity.
Qed.
(** accept, and the move when it says yes, after an exploration that selected [q] *)
Lemma hc_accept_move s x ds q b s' x' ds' : hc_ok s x -> good s q -> h_sel F S I x = Some q -> has (geno s) = true ->
  (let! (b, x2, ds2) := hc_accept G F S I lt has s x ds in
   let! (s2, x3, ds3) := (if b : bool then hc_move G F S I move s x2 ds2 else Ok (s, x2, ds2)) in
   let! (x4, ds4) := no_update G F b s2 x3 ds3 in Ok (b, s2, x4, ds4)) = Ok (b, s', x', ds') ->
  hc_ok s' x' /\ h_acc F S I x' = b /\ ds' = ds /\ b = lt (full (geno s)) (snd q) /\
  (b = true -> improves lt nbrs full move (geno s) (geno s') /\ full (geno s') = snd q) /\ (b = false -> s' = s).
Proof.
  intros (HS & HE & HI) Hq Hs Hh H. unfold hc_accept in H. rewrite Hh, Hs in H. cbn in H. rewrite (good_not_better s q HE Hq) in H. cbn in H.
  destruct (lt (full (geno s)) (snd q)) eqn:El.
  - unfold hc_move in H. cbn in H. destruct (good_move s q Hq) as (g' & Hn & Hg & Hf & E). rewrite E in H. cbn in H.
    injection H as <- <- <- <-. unfold hc_ok. cbn. repeat split; auto. congruence. discriminate.
  - cbn in H. injection H as <- <- <- <-. unfold hc_ok. cbn. repeat split; auto; discriminate.
Qed.
Lemma nothing_left (s : sol) : Sp (geno s) -> has (geno s) = false -> local_optimum lt nbrs full move (geno s).
Proof.
  intros HS Hh g' (i & Hi & _). rewrite (has_false G F S I Sp nbrs has nh Inv Prog xfuel cost NH s HS Hh) in Hi. destruct Hi.
Qed.
Lemma neighbor_good (s : sol) g' : Sp (geno s) -> neighbor nbrs move (geno s) g' -> exists i, In i (nbrs (geno s)) /\ move i (geno s) = Ok g' /\ good s (i, full g').
Proof.
  intros HS (i & Hi & Hm). exists i. repeat split; auto. cbn. destruct (MV _ i HS Hi) as (g2 & Hm2 & Hg2 & _). rewrite Hm in Hm2. injection Hm2 as <-. eauto.
Qed.
(** the selected neighbor of a full exploration is a best one *)
Lemma simple_explore_spec s x ds s1 x1 ds1 : hc_ok s x -> has (geno s) = true ->
  simple_explore G F S I lt has nh neval xfuel s x ds = Ok (s1, x1, ds1) ->
  s1 = s /\ hc_ok s x1 /\ length ds1 <= length ds /\ exists q, h_sel F S I x1 = Some q /\ good s q /\
    forall g', neighbor nbrs move (geno s) g' -> lt (snd q) (full g') = false.
Proof.
  intros (HS & HE & HI) Hh H. unfold simple_explore in H. rewrite Hh in H.
  apply rbind_ok in H as ([[p n] ds2] & Hst & H). apply rbind_ok in H as ([[q n'] ds3] & Hsc & H). injection H as <- <- <-.
  destruct (start_spec G F S I Sp nbrs has nh Inv Prog xfuel cost full neval move NH MV s _ _ _ _ _ HS HE Hh HI Hst) as (Hi & Hp & HP & Hl).
  destruct (scan_spec G F S I Sp nbrs has nh Inv Prog xfuel cost neval NH _ _ s HS _ _ _ _ _ _ _ HP Hsc) as (xs & X1 & X2 & X3 & X4 & [X5|X5]); [discriminate|].
  assert (Hall := explore_all G F S I Sp nbrs has nh Inv Prog xfuel cost NH s _ _ p _ _ _ _ _ _ HS Hh HI Hi X5).
  split; auto. split; [repeat split; auto; apply (nh_inv _ _ _ _ _ _ _ _ NH (geno s)); auto|]. split; [lia|].
  exists q. split; [reflexivity|].
  assert (Q : good s q /\ forall i f, In i ([fst p] ++ xs) -> good s (i, f) -> lt (snd q) f = false).
  { apply (fold_inv G F I Sp nbrs full neval move MV s (keep_best F I lt) (fun a seen => good s a /\ forall i f, In i seen -> good s (i, f) -> lt (snd a) f = false)) with (a := p); auto.
    - destruct LT as (L1 & L2 & L3). intros a seen i f a' (Ha & Hseen) Hg E. unfold keep_best in E. injection E as <-. cbn.
      destruct (lt (snd a) f) eqn:El; cbn; split; auto; intros j fj Hj Hgj; apply in_app_or in Hj as [Hj|[<-|[]]].
      + apply (L3 f (snd a) fj); [|apply (Hseen j); auto]. destruct (lt f (snd a)) eqn:Ef; auto. rewrite <- (L2 (snd a) f (snd a) El Ef). apply L1.
      + rewrite (good_eq G F I Sp nbrs full move s i f fj Hg Hgj). apply L1.
      + apply (Hseen j); auto.
      + rewrite <- (good_eq G F I Sp nbrs full move s i f fj Hg Hgj). auto.
    - split; auto. intros i f [<-|[]] Hg. destruct p as [i0 f0]. cbn in *. rewrite (good_eq G F I Sp nbrs full move s i0 f0 f Hp Hg). apply LT. }
  destruct Q as [Q1 Q2]. split; auto. intros g' Hn. destruct (neighbor_good s g' HS Hn) as (i & Hin & _ & Hg). apply (Q2 i); auto.
Qed.
Lemma simple_turn s x ds b s' x' ds' : hc_ok s x -> ls_turn _ _ simple s x ds = Ok (b, s', x', ds') ->
  hc_ok s' x' /\ h_acc F S I x' = b /\
  (b = true -> improves lt nbrs full move (geno s) (geno s') /\ steepest lt nbrs full move (geno s) (geno s')) /\
  (b = false -> s' = s /\ local_optimum lt nbrs full move (geno s)).
Proof.
  intros HOK H. unfold ls_turn in H. cbn [x_explore x_accept x_move x_update simple_hc] in H.
  apply rbind_ok in H as ([[s1 x1] ds1] & He & H). destruct (has (geno s)) eqn:Hh.
  - destruct (simple_explore_spec _ _ _ _ _ _ HOK Hh He) as (-> & HOK1 & _ & q & Hq & Hg & Hbest).
    destruct (hc_accept_move s x1 ds1 q b s' x' ds' HOK1 Hg Hq Hh H) as (A1 & A2 & A3 & A4 & A5 & A6). split; auto. split; auto. split.
    + intros Hb. destruct (A5 Hb) as [A7 A8]. split; auto. intros g'' Hn. rewrite A8. auto.
    + intros Hb. split; auto. intros g' Hn. destruct LT as (L1 & L2 & L3). apply (L3 _ (snd q)); auto. congruence.
  - unfold simple_explore in He. rewrite Hh in He. injection He as <- <- <-. unfold hc_accept in H. rewrite Hh in H. cbn in H.
    injection H as <- <- <- <-. destruct HOK as (HS & HE & HI). split; [repeat split; auto|]. split; auto. split; [discriminate|]. split; auto. apply nothing_left; auto.
Qed.
(** first improvement *)
Lemma first_explore_spec s x ds s1 x1 ds1 : hc_ok s x -> has (geno s) = true ->
  first_explore G F S I lt has nh neval xfuel s x ds = Ok (s1, x1, ds1) ->
  s1 = s /\ hc_ok s x1 /\ length ds1 <= length ds /\ exists q, h_sel F S I x1 = Some q /\ good s q /\
    (lt (full (geno s)) (snd q) = false -> local_optimum lt nbrs full move (geno s)).
Proof.
  intros (HS & HE & HI) Hh H. unfold first_explore in H. rewrite Hh in H.
  apply rbind_ok in H as ([[p n] ds2] & Hst & H). unfold fitness in H. rewrite HE in H. cbn [rbind] in H.
  apply rbind_ok in H as ([[q n'] ds3] & Hsc & H). injection H as <- <- <-.
  destruct (start_spec G F S I Sp nbrs has nh Inv Prog xfuel cost full neval move NH MV s _ _ _ _ _ HS HE Hh HI Hst) as (Hi & Hp & HP & Hl).
  destruct (scan_until G F S I Sp nbrs has nh Inv Prog xfuel cost full neval move NH MV (lt (full (geno s))) s HS HE _ _ _ _ _ _ _ HP Hp Hsc) as (X1 & X2 & X3 & X4).
  split; auto. split; [repeat split; auto; apply (nh_inv _ _ _ _ _ _ _ _ NH (geno s)); auto|]. split; [lia|].
  exists q. split; [reflexivity|]. split; auto.
  intros Hb. destruct (X4 Hb) as (ys & Y1 & Y2).
  assert (Hall := explore_all G F S I Sp nbrs has nh Inv Prog xfuel cost NH s _ _ p _ _ _ _ _ _ HS Hh HI Hi Y1).
  intros g' Hn. destruct (neighbor_good s g' HS Hn) as (i & Hin & _ & Hg). apply (Y2 i); auto.
Qed.
Lemma first_turn always s x ds b s' x' ds' : hc_ok s x -> ls_turn _ _ (first always) s x ds = Ok (b, s', x', ds') ->
  hc_ok s' x' /\ h_acc F S I x' = b /\ (b = true -> improves lt nbrs full move (geno s) (geno s')) /\
  (b = false -> s' = s /\ local_optimum lt nbrs full move (geno s)).
Proof.
  intros HOK H. unfold ls_turn in H. cbn [x_explore x_accept x_move x_update first_hc] in H.
  apply rbind_ok in H as ([[s1 x1] ds1] & He & H). destruct (has (geno s)) eqn:Hh.
  - destruct (first_explore_spec _ _ _ _ _ _ HOK Hh He) as (-> & HOK1 & _ & q & Hq & Hg & Hbest).
    destruct (hc_accept_move s x1 ds1 q b s' x' ds' HOK1 Hg Hq Hh H) as (A1 & A2 & A3 & A4 & A5 & A6). split; auto. split; auto. split.
    + intros Hb. apply A5; auto.
    + intros Hb. split; auto. apply Hbest. congruence.
  - unfold first_explore in He. rewrite Hh in He. injection He as <- <- <-. unfold hc_accept in H. rewrite Hh in H. cbn in H.
    injection H as <- <- <- <-. destruct HOK as (HS & HE & HI). split; [repeat split; auto|]. split; auto. split; [discriminate|]. split; auto. apply nothing_left; auto.
Qed.
End Climb.
