(** The velocities with changing weights or bounds, the weights, the binary flight *)
From Coq Require Import List Arith Bool Lia ZArith QArith Qround Lqa.
From Verif Require Import Lib Outcome PsoModel PsoSpec PsoMore PsvModel PsvSpec.
From Coq Require Import List.
Import ListNotations.
Open Scope nat_scope.

Section Loop.
Context {F : Type}.
Notation particle := (particle Q Q F).
(** a modifier that changes the bound it is called for, as [f] tells *)
Definition local (modify : modifier) (f : bound -> option bound) : Prop := forall b i b', modify b i = Ok b' ->
  length b' = length b /\ (forall j, j <> i -> nth_error b' j = nth_error b j) /\
  forall c, nth_error b i = Some c -> exists c', f c = Some c' /\ nth_error b' i = Some c'.
Lemma dummy_local : local dummy_modifier Some.
Proof. intros b i b' H. injection H as <-. split; auto. split; auto. intros c Hc. exists c. auto. Qed.
Definition decayed (power : Q) (c : bound) : option bound :=
  match c with (Some l, Some h) => Some (Some l, Some (std_max l ((1 - power) * h)%Q)) | _ => None end.
Lemma decay_local power : local (decay_modifier power) (decayed power).
Proof.
  intros b i b' H. unfold decay_modifier in H. apply rbind_ok in H as ([lo hi] & Hc & H). apply of_opt_ok in Hc.
  destruct hi as [h|]; [|discriminate]. destruct lo as [l|]; [|discriminate]. injection H as <-.
  split; [apply set_length|]. split.
  - intros j N. apply nth_error_set_neq. auto.
  - intros c E. rewrite Hc in E. injection E as <-. exists (Some l, Some (std_max l ((1 - power) * h)%Q)). split; auto.
    apply nth_error_set_eq. eapply nth_error_lt; eauto.
Qed.
Lemma components_ok modify f value : local modify f -> forall xs j b l b', components modify value j xs b = Ok (l, b') ->
  length l = length xs /\ length b' = length b /\
  (forall i, i < j \/ j + length xs <= i -> nth_error b' i = nth_error b i) /\
  forall i x, nth_error xs i = Some x -> exists v c c', value (j + i) x = Ok v /\ nth_error b (j + i) = Some c /\ f c = Some c' /\
    nth_error b' (j + i) = Some c' /\ nth_error l i = Some (check (fun _ => c') (j + i) v).
Proof.
  intros Lc. induction xs as [|x xs IH]; intros j b l b' H; cbn [components] in H.
  - injection H as <- <-. split; auto. split; auto. split; auto. intros [|i] x; discriminate.
  - apply rbind_ok in H as (v & Hv & H). apply rbind_ok in H as (b1 & Hb & H). apply rbind_ok in H as (y & Hy & H).
    apply rbind_ok in H as ([l' b2] & Hl & H). injection H as <- <-. apply IH in Hl as (L1 & L2 & Ot & In1).
    destruct (Lc b j b1 Hb) as (B1 & B2 & B3). unfold check_in in Hy. apply rbind_ok in Hy as (c' & Hc' & Hy). apply of_opt_ok in Hc'. injection Hy as <-.
    split; [cbn; auto|]. split; [congruence|]. split.
    + intros i Hi. cbn [length] in Hi. rewrite Ot by lia. apply B2. lia.
    + intros [|i] z Hz; cbn [nth_error] in *.
      * injection Hz as <-. rewrite Nat.add_0_r. assert (J := nth_error_lt _ _ _ Hc'). rewrite B1 in J.
        destruct (some_nth b j J) as (c & Hc). destruct (B3 c Hc) as (c1 & E1 & E2). rewrite Hc' in E2. injection E2 as <-.
        exists v, c, c'. rewrite Ot by lia. auto.
      * destruct (In1 i z Hz) as (w & c & c1 & V1 & V2 & V3 & V4 & V5). replace (j + S i) with (S j + i) by lia.
        exists w, c, c1. rewrite B2 in V2 by lia. auto.
Qed.
(** *** adjust_size *)
Lemma adjust_ok n b b' : adjust n b = Ok b' -> n <= length b' /\ (forall j c, bound_for b j c -> bound_for b' j c) /\
  (forall j, j < length b -> nth_error b' j = nth_error b j) /\ (forall c, In c b' -> In c b).
Proof.
  unfold adjust. destruct (length b <? n) eqn:E.
  - apply Nat.ltb_lt in E. destruct (rev b) as [|last r] eqn:R; [discriminate|]. intros H. injection H as <-.
    assert (Eb : b = rev r ++ [last]) by (rewrite <- (rev_involutive b), R; auto).
    split; [rewrite app_length, repeat_length; lia|]. split; [|split].
    + intros j c [H|(Hj & front & H)].
      * left. rewrite nth_error_app1; auto. eapply nth_error_lt; eauto.
      * assert (c = last) as ->. { rewrite H in Eb. apply app_inj_tail in Eb. apply Eb. }
        destruct (le_lt_dec n j) as [J|J].
        -- right. split; [rewrite app_length, repeat_length; lia|]. exists (b ++ repeat last (n - length b - 1)).
           rewrite <- app_assoc. f_equal. change ([last]) with (repeat last 1). rewrite <- repeat_app. f_equal. lia.
        -- left. rewrite nth_error_app2 by auto. apply nth_error_repeat. lia.
    + intros j J. apply nth_error_app1. auto.
    + intros c H. apply in_app_or in H as [H|H]; auto. apply repeat_spec in H. subst. apply in_or_app. cbn; auto.
  - apply Nat.ltb_ge in E. intros H. injection H as <-. auto.
Qed.
Lemma adjust_total n b : b <> [] -> exists b', adjust n b = Ok b'.
Proof.
  intros N. unfold adjust. destruct (_ <? _); eauto. destruct (rev b) as [|x r] eqn:R; eauto.
  exfalso. apply N. rewrite <- (rev_involutive b), R. auto.
Qed.
Lemma bound_for_lt (b : list bound) j c : j < length b -> bound_for b j c -> nth_error b j = Some c.
Proof. intros J [H|(H & _)]; auto. lia. Qed.

(** *** the weighted velocities *)
Definition moved (coeff weight r1 r2 : Q) (p lb : particle) (bs : list bound) (l : list Q) : Prop :=
  length l = length (pos p) /\
  forall j x v b g c, nth_error (pos p) j = Some x -> nth_error (vel p) j = Some v -> nth_error (bpos p) j = Some b ->
    nth_error (pos lb) j = Some g -> bound_for bs j c -> consistent (fst c) (snd c) ->
    exists y z, nth_error l j = Some y /\ (z == coeff * (weight * v + r1 * (b - x) + r2 * (g - x)))%Q /\ brought_back (fst c) (snd c) z y.
Lemma check_any (c : bound) j x : consistent (fst c) (snd c) -> brought_back (fst c) (snd c) x (check (fun _ => c) j x).
Proof. intros C. apply (check_ok (fun _ => c) j x C). Qed.
Lemma raw_ok weight coeff r1 r2 r3 (p lb gb : particle) j x y v b l g : raw F weight coeff r1 r2 r3 p lb gb j x = Ok y ->
  nth_error (vel p) j = Some v -> nth_error (bpos p) j = Some b -> nth_error (pos lb) j = Some l -> nth_error (pos gb) j = Some g ->
  y = (coeff * (weight * v + r1 * (b - x) + r2 * (l - x) + r3 * (g - x)))%Q.
Proof. unfold raw. intros H H1 H2 H3 H4. rewrite H1, H2, H3, H4 in H. cbn [of_opt rbind] in H. injection H as <-. auto. Qed.
Lemma weighted_ok modify f coeff weight c1 c2 u1 u2 (p lb : particle) b l b' : local modify f ->
  length (vel p) = length (pos p) -> weighted_velocity modify coeff weight c1 c2 u1 u2 p lb b = Ok (l, b') ->
  moved coeff weight (u1 * c1) (u2 * c2) p lb b' l /\ length (pos p) <= length b' /\
  (forall j c, bound_for b j c -> j < length (pos p) -> exists c', f c = Some c' /\ nth_error b' j = Some c').
Proof.
  intros Lc Ev H. unfold weighted_velocity in H. apply rbind_ok in H as (b1 & Hb & H). apply rbind_ok in H as ([l1 b2] & Hl & H).
  injection H as <- <-. apply (components_ok _ _ _ Lc) in Hl as (L1 & L2 & _ & In1). apply adjust_ok in Hb as (A1 & A2 & _).
  rewrite skipn_all2 by lia. rewrite app_nil_r. split; [|split; [lia|]].
  - split; auto. intros j x v bb g c Hx Hv Hbb Hg Hc Co. destruct (In1 j x Hx) as (y & c0 & c' & V1 & V2 & V3 & V4 & V5). cbn [Nat.add] in *.
    assert (J := nth_error_lt _ _ _ Hx). apply bound_for_lt in Hc; [|lia]. rewrite V4 in Hc. injection Hc as <-.
    exists (check (fun _ => c') j y), y. split; auto. split; [|apply check_any; auto].
    rewrite (raw_ok _ _ _ _ _ _ _ _ _ _ _ _ _ _ _ V1 Hv Hbb Hg Hg). ring.
  - intros j c Hc J. apply A2 in Hc. apply bound_for_lt in Hc; [|lia].
    destruct (some_nth (pos p) j J) as (x & Hx). destruct (In1 j x Hx) as (y & c0 & c' & V1 & V2 & V3 & V4 & V5). cbn [Nat.add] in *.
    rewrite Hc in V2. injection V2 as <-. eauto.
Qed.
Lemma dummy_keeps value xs : forall j b l b', components dummy_modifier value j xs b = Ok (l, b') -> b' = b.
Proof.
  induction xs as [|x xs IH]; intros j b l b' H; cbn [components] in H; [injection H as _ <-; auto|].
  apply rbind_ok in H as (v & Hv & H). cbn [dummy_modifier rbind] in H. apply rbind_ok in H as (y & Hy & H).
  apply rbind_ok in H as ([l' b2] & Hl & H). injection H as _ <-. eapply IH; eauto.
Qed.
Lemma weighted_dummy coeff weight c1 c2 u1 u2 (p lb : particle) b l b' :
  weighted_velocity dummy_modifier coeff weight c1 c2 u1 u2 p lb b = Ok (l, b') -> forall j c, bound_for b j c -> bound_for b' j c.
Proof.
  intros H. unfold weighted_velocity in H. apply rbind_ok in H as (b1 & Hb & H). apply rbind_ok in H as ([l1 b2] & Hl & H).
  injection H as <- <-. apply dummy_keeps in Hl. subst. apply adjust_ok in Hb. apply Hb.
Qed.
Lemma components_total (modify : modifier) value (P : list bound -> Prop) : (forall b j, P b -> j < length b -> exists b', modify b j = Ok b' /\ length b' = length b /\ P b') ->
  forall xs j b, P b -> j + length xs <= length b -> (forall i x, nth_error xs i = Some x -> exists v, value (j + i) x = Ok v) ->
  exists l b', components modify value j xs b = Ok (l, b').
Proof.
  intros M. induction xs as [|x xs IH]; intros j b Pb J Hv; cbn [components]; eauto.
  destruct (Hv 0 x eq_refl) as (v & Ev). rewrite Nat.add_0_r in Ev. rewrite Ev. cbn [rbind].
  destruct (M b j Pb) as (b1 & E1 & L1 & P1). { cbn in J. lia. } rewrite E1. cbn [rbind].
  unfold check_in. destruct (some_nth b1 j) as (c & ->). { cbn in J. lia. } cbn [of_opt rbind].
  destruct (IH (S j) b1 P1) as (l & b' & E). { cbn in J. lia. } { intros i z Hz. replace (S j + i) with (j + S i) by lia. apply Hv. auto. }
  rewrite E. cbn [rbind]. eauto.
Qed.
Lemma raw_total weight coeff r1 r2 r3 (p lb gb : particle) j x : j < length (vel p) -> j < length (bpos p) -> j < length (pos lb) -> j < length (pos gb) ->
  exists y, raw F weight coeff r1 r2 r3 p lb gb j x = Ok y.
Proof.
  intros. unfold raw. destruct (some_nth (vel p) j) as (? & ->); auto. destruct (some_nth (bpos p) j) as (? & ->); auto.
  destruct (some_nth (pos lb) j) as (? & ->); auto. destruct (some_nth (pos gb) j) as (? & ->); auto. cbn [of_opt rbind]. eauto.
Qed.
Definition same_size (p lb : particle) : Prop :=
  length (vel p) = length (pos p) /\ length (bpos p) = length (pos p) /\ length (pos lb) = length (pos p).
Lemma weighted_total (modify : modifier) (P : list bound -> Prop) coeff weight c1 c2 u1 u2 (p lb : particle) b :
  (forall b j, P b -> j < length b -> exists b', modify b j = Ok b' /\ length b' = length b /\ P b') ->
  (forall n b b', P b -> adjust n b = Ok b' -> P b') -> P b -> b <> [] -> same_size p lb ->
  exists l b', weighted_velocity modify coeff weight c1 c2 u1 u2 p lb b = Ok (l, b').
Proof.
  intros M Pa Pb N (E1 & E2 & E3). unfold weighted_velocity. destruct (adjust_total (length (pos p)) b N) as (b1 & Eb). rewrite Eb. cbn [rbind].
  assert (A1 := proj1 (adjust_ok _ _ _ Eb)).
  destruct (components_total modify (fun j x => raw F weight coeff (u1 * c1) (u2 * c2) 0 p lb lb j x) P M (pos p) 0 b1) as (l & b' & E).
  - eapply Pa; eauto.
  - auto.
  - intros i x Hx. assert (X := nth_error_lt _ _ _ Hx). cbn [Nat.add]. apply raw_total; lia.
  - rewrite E. cbn [rbind]. eauto.
Qed.
(** *** rounding *)
Lemma c_round_ok q : nearest q (c_round q).
Proof.
  unfold c_round. destruct (Qle_bool 0 q) eqn:E.
  - apply Qle_bool_iff in E. assert (X := Qfloor_le (q + (1 # 2))). assert (Y := Qlt_floor (q + (1 # 2))).
    set (z := Qfloor (q + (1 # 2))) in *. rewrite inject_Z_plus in Y. change (inject_Z 1) with 1%Q in Y.
    repeat split; intros; lra.
  - assert (E' : (q < 0)%Q). { apply Qnot_le_lt. intros H. apply Qle_bool_iff in H. congruence. }
    assert (X := Qfloor_le (- q + (1 # 2))). assert (Y := Qlt_floor (- q + (1 # 2))).
    set (z := Qfloor (- q + (1 # 2))) in *. rewrite inject_Z_plus in Y. change (inject_Z 1) with 1%Q in Y.
    assert (Z0 : (inject_Z (- z) == - inject_Z z)%Q) by (rewrite inject_Z_opp; reflexivity).
    repeat split; intros; try lra.
Qed.
Lemma integer_ok modify c1 c2 c3 u2 u3 (p lb : particle) b l b' :
  length (vel p) = length (pos p) -> integer_velocity modify c1 c2 c3 u2 u3 p lb b = Ok (l, b') ->
  length l = length (pos p) /\ (forall j c, bound_for b j c -> bound_for b' j c) /\
  forall j x v bb g c, nth_error (pos p) j = Some x -> nth_error (vel p) j = Some v -> nth_error (bpos p) j = Some bb ->
    nth_error (pos lb) j = Some g -> bound_for b j c ->
    exists q, (q == c1 * v + u2 * c2 * (bb - x) + u3 * c3 * (g - x))%Q /\ nth_error l j = Some (check (fun _ => c) j (inject_Z (c_round q))).
Proof.
  intros Ev H. unfold integer_velocity in H. apply rbind_ok in H as (b1 & Hb & H). apply rbind_ok in H as ([l1 b2] & Hl & H).
  injection H as <- <-. assert (K := dummy_keeps _ _ _ _ _ _ Hl). subst b2.
  apply (components_ok _ _ _ dummy_local) in Hl as (L1 & L2 & _ & In1). apply adjust_ok in Hb as (A1 & A2 & _).
  rewrite skipn_all2 by lia. rewrite app_nil_r. split; auto. split; auto.
  intros j x v bb g c Hx Hv Hbb Hg Hc. destruct (In1 j x Hx) as (y & c0 & c' & V1 & V2 & V3 & V4 & V5). cbn [Nat.add] in *.
  apply rbind_ok in V1 as (q & V1 & Eq). injection Eq as <-.
  assert (J := nth_error_lt _ _ _ Hx). apply A2 in Hc. apply bound_for_lt in Hc; [|lia]. injection V3 as <-. rewrite V2 in Hc. injection Hc as <-.
  exists q. split; auto. rewrite (raw_ok _ _ _ _ _ _ _ _ _ _ _ _ _ _ _ V1 Hv Hbb Hg Hg). ring.
Qed.
Lemma check_integral (c : bound) j z : (forall m, fst c = Some m -> integral m) -> (forall m, snd c = Some m -> integral m) ->
  integral (check (fun _ => c) j (inject_Z z)).
Proof.
  intros C1 C2. assert (Z0 : integral (inject_Z z)) by (exists z; reflexivity).
  unfold check. destruct c as [lo hi]. cbn [fst snd] in *.
  assert (X : integral (match lo with Some m => std_max (inject_Z z) m | None => inject_Z z end)).
  { destruct lo as [m|]; auto. unfold std_max. destruct (Qlt_le_dec _ _); auto. }
  destruct hi as [m|]; auto. unfold std_min. destruct (Qlt_le_dec _ _); auto.
Qed.
End Loop.

(** *** the weights *)
Lemma linear_weight_in stop t i f : (0 < stop < 2 ^ 32)%Z -> (0 <= t <= stop)%Z ->
  exists w, linear_weight stop t i f = Some w /\ (w == f + (i - f) * inject_Z (stop - t) / inject_Z stop)%Q.
Proof.
  intros S0 T0. unfold linear_weight. rewrite (proj2 (Z.eqb_neq stop 0)) by lia.
  rewrite Z.mod_small by lia. eexists. split; [reflexivity|].
  assert (~ inject_Z stop == 0)%Q. { unfold Qeq. cbn. lia. }
  field. auto.
Qed.

(** *** the binary flight *)
Section Binary.
Context {V F : Type} (sigmoid : V -> Q).
Lemma binary_from_ok xs : forall j vs us l us', binary_from sigmoid j xs vs us = Ok (l, us') ->
  length l = length xs /\ (exists used, us = used ++ us' /\ length used = length xs) /\
  forall i, i < length xs -> exists v u, nth_error vs (j + i) = Some v /\ nth_error us i = Some u /\
    nth_error l i = Some (if Qlt_le_dec u (sigmoid v) then 1 else 0).
Proof.
  induction xs as [|x xs IH]; intros j vs us l us' H; cbn [binary_from] in H.
  - injection H as <- <-. split; auto. split; [exists []; auto|]. intros i Hi. cbn in Hi. lia.
  - destruct us as [|u us]; [discriminate|]. apply rbind_ok in H as (v & Hv & H). apply of_opt_ok in Hv. cbv zeta in H.
    apply rbind_ok in H as ([l1 us1] & Hl & H). injection H as <- <-. apply IH in Hl as (L & (used & Eu & Lu) & Hi).
    split; [cbn; auto|]. split; [exists (u :: used); split; [cbn; congruence|cbn; auto]|].
    intros [|i] I; cbn [nth_error].
    + exists v, u. rewrite Nat.add_0_r. auto.
    + destruct (Hi i) as (w & u' & W1 & W2 & W3). { cbn in I. lia. } exists w, u'. replace (j + S i) with (S j + i) by lia. auto.
Qed.
Lemma binary_from_total xs : forall j vs us, j + length xs <= length vs -> length xs <= length us -> exists l us', binary_from sigmoid j xs vs us = Ok (l, us').
Proof.
  induction xs as [|x xs IH]; intros j vs us J U; cbn [binary_from]; eauto. destruct us as [|u us]; [cbn in U; lia|].
  destruct (some_nth vs j) as (v & ->); [cbn in J; lia|]. cbn [of_opt rbind]. cbv zeta.
  destruct (IH (S j) vs us) as (l & us' & E); [cbn in J; lia|cbn in U; lia|]. rewrite E. cbn [rbind]. eauto.
Qed.
End Binary.
