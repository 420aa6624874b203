From Coq Require Import Arith Bool ZArith Lia.
From Verif Require Import Lib Outcome BreedModel AlgoModel AlgoSpec CelModel CelSpec.
From Coq Require Import List.
Import ListNotations.
Local Open Scope nat_scope.

(** ** the simple EDA *)
Section Eda.
Context {G F W : Type}.
Notation I := (indiv G F).
Variable D : Type.
Variable sample : D -> I -> W -> res (I * W).
Variable eval : evaluator (G:=G) (F:=F) (W:=W).
Variable update : D -> list I -> W -> res (D * list I * W).
Variable cont : list I -> W -> res (bool * W).
Notation loop := (eda_loop D sample eval update cont).

Lemma apply_eval_each (f : evaluator (G:=G) (F:=F) (W:=W)) pop : forall w pop' w', apply_eval f pop w = Ok (pop', w') ->
  length pop' = length pop /\ forall y, In y pop' -> exists x u u', In x pop /\ f x u = Ok (y, u').
Proof.
  induction pop as [|x r IH]; intros w pop' w' H; cbn [apply_eval] in H.
  - inversion H; subst. split; [reflexivity|]. intros y [].
  - apply rbind_ok in H as ([x' w1] & H1 & H). apply rbind_ok in H as ([r' w2] & H2 & H). inversion H; subst.
    destruct (IH _ _ _ H2) as [L K]. split; [cbn; congruence|]. intros y [<-|Hy].
    + exists x, w, w1. split; [left; reflexivity|exact H1].
    + destruct (K y Hy) as (a & u & u' & Ia & Ea). exists a, u, u'. split; [right; exact Ia|exact Ea].
Qed.

Lemma eda_trace fuel : forall d pop w d' tr w', loop fuel d pop w = Ok (d', tr, w') ->
  tr <> [] /\ stops_at_first_no cont (map t_left tr) /\
  (forall t, nth_error tr 0 = Some t -> t_before t = d) /\
  (forall i a b, nth_error tr i = Some a -> nth_error tr (S i) = Some b -> t_before b = t_after a) /\
  (forall t, nth_error tr (length tr - 1) = Some t -> t_after t = d') /\
  (forall t, In t tr -> exists u u', update (t_before t) (t_pop t) u = Ok (t_after t, t_left t, u')).
Proof.
  induction fuel as [|f IH]; intros d pop w d' tr w' H; cbn [eda_loop] in H; [discriminate|].
  apply rbind_ok in H as ([p1 w1] & H1 & H). apply rbind_ok in H as ([p2 w2] & H2 & H).
  apply rbind_ok in H as ([[d1 p3] w3] & H3 & H). apply rbind_ok in H as ([b w4] & Hc & H). destruct b.
  - apply rbind_ok in H as ([[d2 tr1] w5] & Hr & H). inversion H; subst.
    destruct (IH _ _ _ _ _ _ Hr) as (N & K1 & K2 & K3 & K4 & K5). split; [discriminate|]. split.
    { intros [|i] p E; cbn in E.
      - inversion E; subst. exists w3, w4. rewrite Hc. replace (1 <? _) with true; [reflexivity|].
        symmetry. apply Nat.ltb_lt. destruct tr1; [congruence|cbn; lia].
      - destruct (K1 i p E) as (u & u' & Hu). exists u, u'. rewrite Hu. reflexivity. }
    split; [intros t E; inversion E; reflexivity|]. split; [|split].
    + intros [|i] a c E1 E2; cbn in E1.
      * inversion E1; subst. exact (K2 c E2).
      * exact (K3 i a c E1 E2).
    + intros t E. apply K4. destruct tr1 as [|t1 tr1]; [congruence|]. cbn [length] in *.
      replace (S (S (length tr1)) - 1) with (S (length tr1)) in E by lia. cbn [nth_error] in E.
      replace (S (length tr1) - 1) with (length tr1) by lia. exact E.
    + intros t [<-|Ht]; [exists w2, w3; exact H3|apply K5; exact Ht].
  - inversion H; subst. split; [discriminate|]. split.
    { intros [|[|i]] p E; cbn in E; try discriminate. inversion E; subst. exists w3, w'. exact Hc. }
    split; [intros t E; inversion E; reflexivity|]. split; [|split].
    + intros [|i] a c E1 E2; cbn in E2; [discriminate|destruct i; discriminate].
    + intros t E. inversion E; reflexivity.
    + intros t [<-|[]]. exists w2, w3. exact H3.
Qed.

Lemma eda_populations (value : G -> F) n : evaluates value eval ->
  (forall d x w x' w', sample d x w = Ok (x', w') -> fit x' = None) ->
  (forall d p w d' p' w', update d p w = Ok (d', p', w') -> length p' = length p) ->
  forall fuel d pop w d' tr w', length pop = n -> loop fuel d pop w = Ok (d', tr, w') ->
  forall t, In t tr -> length (t_pop t) = n /\ Forall (evaluated value) (t_pop t) /\
    forall y, In y (t_pop t) -> exists x u x' u', sample (t_before t) x u = Ok (x', u') /\ geno y = geno x'.
Proof.
  intros He Hs Hu. induction fuel as [|f IH]; intros d pop w d' tr w' L H; cbn [eda_loop] in H; [discriminate|].
  apply rbind_ok in H as ([p1 w1] & H1 & H). apply rbind_ok in H as ([p2 w2] & H2 & H).
  apply rbind_ok in H as ([[d1 p3] w3] & H3 & H). apply rbind_ok in H as ([b w4] & Hc & H).
  destruct (apply_eval_each _ _ _ _ _ H1) as [L1 K1]. destruct (apply_eval_each _ _ _ _ _ H2) as [L2 K2].
  assert (T : length p2 = n /\ Forall (evaluated value) p2 /\
    forall y, In y p2 -> exists x u x' u', sample d x u = Ok (x', u') /\ geno y = geno x').
  { split; [congruence|]. split.
    - apply Forall_forall. intros y Hy. destruct (K2 y Hy) as (x & u & u' & Ix & Ey).
      destruct (K1 x Ix) as (z & v & v' & _ & Ez). apply Hs in Ez.
      destruct (He _ _ _ _ Ey) as [Eg [Ef|[_ Ef]]]; [unfold evaluated; rewrite Ef, Eg; reflexivity|congruence].
    - intros y Hy. destruct (K2 y Hy) as (x & u & u' & Ix & Ey). destruct (K1 x Ix) as (z & v & v' & _ & Ez).
      exists z, v, x, v'. split; [exact Ez|]. exact (proj1 (He _ _ _ _ Ey)). }
  destruct b.
  - apply rbind_ok in H as ([[d2 tr1] w5] & Hr & H). inversion H; subst.
    intros t [<-|Ht]; [exact T|]. apply (IH d1 p3 w4 d' tr1 w'); [rewrite (Hu _ _ _ _ _ _ H3); congruence|exact Hr|exact Ht].
  - inversion H; subst. intros t [<-|[]]. exact T.
Qed.
End Eda.

(** ** wrappers that throw *)
Section Wrap.
Context {G F W : Type}.
Notation I := (indiv G F).
Variable value : G -> F.
Variable func : evaluator (G:=G) (F:=F) (W:=W).
Hypothesis func_computes : computes value func.

Definition newly (x : I) : I := match fit x with None => Ind (geno x) (Some (value (geno x))) | Some _ => x end.

Lemma nan_step finite x w r : nan_eval finite func x w = Ok r ->
  match r with
  | inl (x', _) => x' = newly x /\ (fit x = None -> finite (value (geno x)) = true)
  | inr (x', _) => x' = newly x /\ fit x = None /\ finite (value (geno x)) = false
  end.
Proof.
  unfold nan_eval, newly. destruct (fit x) as [f|] eqn:E.
  - intros H. inversion H; subst. split; [reflexivity|]. discriminate.
  - intros H. apply rbind_ok in H as ([x' w1] & Hf & H). apply func_computes in Hf. subst x'. cbn [fit] in H.
    destruct (finite (value (geno x))) eqn:Ef; inversion H; subst; auto.
Qed.

Lemma nan_apply finite pop : forall w r, apply_or_throw (nan_eval finite func) pop w = Ok r ->
  match r with
  | inl (pop', _) => pop' = map newly pop /\ forall x, In x pop -> fit x = None -> finite (value (geno x)) = true
  | inr (pop', _) => exists l1 x l2, pop = l1 ++ x :: l2 /\ pop' = map newly l1 ++ newly x :: l2 /\
      fit x = None /\ finite (value (geno x)) = false /\
      forall y, In y l1 -> fit y = None -> finite (value (geno y)) = true
  end.
Proof.
  induction pop as [|x rest IH]; intros w r H; cbn [apply_or_throw] in H.
  - inversion H; subst. split; [reflexivity|]. intros x [].
  - apply rbind_ok in H as (y & Hy & H). pose proof (nan_step _ _ _ _ Hy) as Sx. destruct y as [[x' s']|[x' s']].
    + destruct Sx as [-> Fx]. apply rbind_ok in H as (z & Hz & H). specialize (IH _ _ Hz). destruct z as [[r' s2]|[r' s2]].
      * inversion H; subst. destruct IH as [-> K]. split; [reflexivity|]. intros y [<-|Iy]; auto.
      * inversion H; subst. destruct IH as (l1 & a & l2 & -> & -> & K1 & K2 & K3).
        exists (x :: l1), a, l2. repeat split; auto. intros y [<-|Iy]; auto.
    + inversion H; subst. destruct Sx as (-> & Fx & Fv). exists [], x, rest. repeat split; auto.
Qed.

Lemma time_step usage max x s r : time_eval usage max func x s = Ok r ->
  match r with
  | inl (x', s') => x' = newly x /\ fst s' = fst s /\ (fit x = None -> (fst (usage (snd s)) < max)%Z)
  | inr (x', s') => x' = x /\ fst s' = fst s /\ fit x = None /\ (max <= fst (usage (snd s)))%Z
  end.
Proof.
  unfold time_eval, newly. destruct (fit x) as [f|] eqn:E.
  - intros H. inversion H; subst. split; [reflexivity|]. split; [reflexivity|]. discriminate.
  - destruct (usage (snd s)) as [c w1]. cbn [fst]. destruct (max <=? c)%Z eqn:Ec; intros H.
    + apply Z.leb_le in Ec. inversion H; subst. auto.
    + apply Z.leb_gt in Ec. apply rbind_ok in H as ([x' w2] & Hf & H). apply func_computes in Hf. subst x'.
      inversion H; subst. auto.
Qed.

Lemma time_apply usage max pop : forall s r, apply_or_throw (time_eval usage max func) pop s = Ok r ->
  match r with
  | inl (pop', s') => pop' = map newly pop /\ fst s' = fst s
  | inr (pop', s') => fst s' = fst s /\ exists l1 x l2 u, pop = l1 ++ x :: l2 /\ pop' = map newly l1 ++ x :: l2 /\
      fit x = None /\ (max <= fst (usage u))%Z
  end.
Proof.
  induction pop as [|x rest IH]; intros s r H; cbn [apply_or_throw] in H.
  - inversion H; subst. auto.
  - apply rbind_ok in H as (y & Hy & H). pose proof (time_step _ _ _ _ _ Hy) as Sx. destruct y as [[x' s']|[x' s']].
    + destruct Sx as (-> & Fx & _). apply rbind_ok in H as (z & Hz & H). specialize (IH _ _ Hz). destruct z as [[r' s2]|[r' s2]].
      * inversion H; subst. destruct IH as [-> K]. split; [reflexivity|congruence].
      * inversion H; subst. destruct IH as (K0 & l1 & a & l2 & u & -> & -> & K1 & K2).
        split; [congruence|]. exists (x :: l1), a, l2, u. auto.
    + inversion H; subst. destruct Sx as (-> & Fx & Fv & Fm). split; [exact Fx|]. exists [], x, rest, (snd s). auto.
Qed.
End Wrap.

(** ** clocks *)
Local Open Scope Z_scope.
Lemma time_continue_iff start max now : time_continue start max now = true <-> now - start < max.
Proof. unfold time_continue. destruct (Z.leb_spec max (now - start)); split; intros; try lia; try discriminate; reflexivity. Qed.

Lemma time_continue_once start max readings i j a b : forward readings -> (i <= j)%nat ->
  nth_error readings i = Some a -> nth_error readings j = Some b ->
  time_continue start max a = false -> time_continue start max b = false.
Proof.
  intros Hf Hij Ea Eb E. pose proof (Hf i j a b Hij Ea Eb).
  destruct (time_continue start max b) eqn:E2; [|reflexivity]. apply time_continue_iff in E2.
  assert (time_continue start max a = true) by (apply time_continue_iff; lia). congruence.
Qed.

Lemma timed_step seconds last c1 c2 c3 : last <> 0 -> 0 <= c2 - last < 2 ^ 32 ->
  timed_monitor seconds last c1 c2 c3 =
  if seconds * clocks_per_sec <=? c2 - last then (true, c3) else (false, last).
Proof.
  intros Hl Hc. unfold timed_monitor, wrap32. replace (last =? 0) with false by (symmetry; apply Z.eqb_neq; exact Hl).
  rewrite Z.mod_small by exact Hc. destruct (seconds * clocks_per_sec <=? c2 - last); reflexivity.
Qed.
Lemma timed_first seconds c1 c2 c3 : timed_monitor seconds 0 c1 c2 c3 = (true, c3).
Proof. unfold timed_monitor. cbn [Z.eqb]. destruct (_ <=? _); reflexivity. Qed.

Lemma timed_never seconds last cs : 4295 <= seconds -> last <> 0 -> Forall (fun b => b = false) (timed_calls seconds last cs).
Proof.
  intros Hs Hl. induction cs as [|[[c1 c2] c3] cs IH]; [constructor|]. cbn [timed_calls].
  assert (E : timed_monitor seconds last c1 c2 c3 = (false, last)).
  { unfold timed_monitor, wrap32. replace (last =? 0) with false by (symmetry; apply Z.eqb_neq; exact Hl).
    assert (B : 0 <= (c2 - last) mod 2 ^ 32 < 2 ^ 32) by (apply Z.mod_pos_bound; lia).
    unfold clocks_per_sec. replace (_ <=? _) with false; [reflexivity|]. symmetry. apply Z.leb_gt.
    change (2 ^ 32) with 4294967296 in *. lia. }
  rewrite E. constructor; [reflexivity|exact IH].
Qed.
