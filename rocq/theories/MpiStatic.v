(** * Proofs about the static assignment *)

From Coq Require Import ZArith List Bool Lia Permutation.
From Verif Require Import Outcome Lib MpiModel MpiSpec.
Import ListNotations.
Local Open Scope Z_scope.

Lemma set_fn_eq {B} (g : Z -> B) w b : set_fn g w b w = b.
Proof. unfold set_fn. now rewrite Z.eqb_refl. Qed.

Lemma set_fn_neq {B} (g : Z -> B) w b x : x <> w -> set_fn g w b x = g x.
Proof. intros N. unfold set_fn. destruct (x =? w) eqn:E; [apply Z.eqb_eq in E; contradiction|reflexivity]. Qed.

Lemma put_map {B} (ws : list Z) (g : Z -> B) i w b :
  NoDup ws -> nth_error ws i = Some w ->
  put (map g ws) i b = map (set_fn g w b) ws.
Proof.
  revert i. induction ws as [|x ws IH]; intros i ND E; destruct i as [|i]; try discriminate.
  - injection E as ->. inversion ND; subst. cbn. rewrite set_fn_eq. f_equal.
    apply map_ext_in. intros a Ha. rewrite set_fn_neq; [reflexivity|].
    intros ->; contradiction.
  - inversion ND; subst. cbn in E |- *. rewrite (IH i); auto. rewrite set_fn_neq; [reflexivity|].
    intros ->. apply nth_error_In in E. contradiction.
Qed.

Lemma index_of_spec ws w k :
  In w ws -> exists i, index_of ws w k = Some (k + i)%nat /\ nth_error ws i = Some w.
Proof.
  revert k. induction ws as [|x ws IH]; intros k H; [destruct H|].
  cbn. destruct (x =? w) eqn:E.
  - apply Z.eqb_eq in E. subst. exists 0%nat. rewrite Nat.add_0_r. auto.
  - destruct H as [H|H]; [subst; now rewrite Z.eqb_refl in E|].
    destruct (IH (S k) H) as (i & H1 & H2). exists (S i). split; [|exact H2].
    rewrite H1. f_equal. lia.
Qed.

Lemma index_of_none ws w k : ~ In w ws -> index_of ws w k = None.
Proof.
  revert k. induction ws as [|x ws IH]; intros k H; [reflexivity|].
  cbn. destruct (x =? w) eqn:E; [apply Z.eqb_eq in E; subst; exfalso; apply H; now left|].
  apply IH. intros HI. apply H. now right.
Qed.

Lemma total_of_ext {A} (g h : A -> Z) l :
  (forall x, In x l -> g x = h x) -> total_of g l = total_of h l.
Proof.
  induction l as [|a l IH]; intros H; [reflexivity|].
  cbn. fold (total_of g l). fold (total_of h l). rewrite (H a), IH; [reflexivity| |now left].
  intros x Hx. apply H. now right.
Qed.

Lemma total_of_set (ws : list Z) g w v :
  NoDup ws -> In w ws -> total_of (set_fn g w v) ws = total_of g ws + v - g w.
Proof.
  induction ws as [|x ws IH]; intros ND H; [destruct H|].
  inversion ND; subst. cbn [total_of fold_right]. fold (total_of (set_fn g w v) ws). fold (total_of g ws).
  destruct (Z.eq_dec x w) as [E|E].
  - subst. rewrite set_fn_eq.
    rewrite (total_of_ext (set_fn g w v) g ws); [lia|].
    intros y Hy. apply set_fn_neq. intros ->; contradiction.
  - rewrite set_fn_neq by assumption. destruct H as [H|H]; [contradiction|].
    rewrite IH by assumption. lia.
Qed.

Lemma total_of_nonneg {A} (g : A -> Z) l : (forall x, In x l -> 0 <= g x) -> 0 <= total_of g l.
Proof.
  induction l as [|a l IH]; intros H; [cbn; lia|].
  cbn. fold (total_of g l). specialize (IH (fun x Hx => H x (or_intror Hx))).
  specialize (H a (or_introl eq_refl)). lia.
Qed.

Lemma total_of_zero {A} (g : A -> Z) l :
  (forall x, In x l -> 0 <= g x) -> total_of g l <= 0 -> forall x, In x l -> g x = 0.
Proof.
  induction l as [|a l IH]; intros H HS x Hx; [destruct Hx|].
  cbn in HS. fold (total_of g l) in HS.
  pose proof (H a (or_introl eq_refl)) as Ha.
  assert (HT : 0 <= total_of g l) by (apply total_of_nonneg; intros y Hy; apply H; now right).
  destruct Hx as [Hx|Hx]; [subst; lia|].
  apply IH; auto; [intros y Hy; apply H; now right|lia].
Qed.

(** Length of a filter when one value of the test changes. *)
Lemma filter_set_true (ws : list Z) bz w :
  NoDup ws -> In w ws -> bz w = false ->
  length (filter (fun x => negb (bz x)) ws)
  = S (length (filter (fun x => negb (set_fn bz w true x)) ws)).
Proof.
  induction ws as [|x ws IH]; intros ND H B; [destruct H|].
  inversion ND; subst. cbn [filter]. destruct (Z.eq_dec x w) as [E|E].
  - subst. rewrite set_fn_eq, B. cbn. f_equal. f_equal. apply filter_ext_in.
    intros a Ha. rewrite set_fn_neq; [reflexivity|]. intros ->; contradiction.
  - destruct H as [H|H]; [contradiction|]. rewrite set_fn_neq by assumption.
    destruct (negb (bz x)); cbn; rewrite (IH H3 H B); reflexivity.
Qed.

Lemma filter_set_false (ws : list Z) bz w :
  NoDup ws -> In w ws -> bz w = true ->
  length (filter (fun x => negb (set_fn bz w false x)) ws)
  = S (length (filter (fun x => negb (bz x)) ws)).
Proof.
  intros ND H B.
  rewrite (filter_set_true ws (set_fn bz w false) w ND H (set_fn_eq _ _ _)). do 2 f_equal.
  apply filter_ext. intros x. destruct (Z.eq_dec x w) as [->|E].
  - now rewrite set_fn_eq, B.
  - now rewrite !set_fn_neq by assumption.
Qed.

(** ** The invariant of the static assignment: [bz w] says whether worker [w]
    is busy, [rem w] how many jobs it can still be given. *)
Record st_inv (ws : list Z) (s : static) (bz : Z -> bool) (rem : Z -> Z) : Prop := {
  si_nodup : NoDup ws;
  si_ranks : real_rank s = ws;
  si_busy : busy s = map bz ws;
  si_att : att s = map (fun w => rem w + (if bz w then 1 else 0)) ws;
  si_free : free_workers s = Z.of_nat (length (filter (fun w => negb (bz w)) ws));
  si_rem : forall w, In w ws -> 0 <= rem w }.

Lemma first_free_spec (ws : list Z) (bz : Z -> bool) rem k :
  exists o, first_free (map (fun w => rem w + (if bz w then 1 else 0)) ws) (map bz ws) k = Ok o /\
  match o with
  | None => forall w, In w ws -> bz w = true \/ rem w <= 0
  | Some j => exists i w, j = (k + i)%nat /\ nth_error ws i = Some w /\ bz w = false /\ 0 < rem w /\
                forall j' w', (j' < i)%nat -> nth_error ws j' = Some w' -> bz w' = true \/ rem w' <= 0
  end.
Proof.
  revert k. induction ws as [|x ws IH]; intros k.
  - exists None. split; [reflexivity|]. intros w [].
  - cbn [map first_free tl]. destruct (bz x) eqn:B.
    + destruct (IH (S k)) as (o & H1 & H2). exists o. split; [exact H1|].
      destruct o as [j|].
      * destruct H2 as (i & w & E & N & Bw & Rw & L). exists (S i), w.
        repeat split; auto; [lia|]. intros j' w' Hj Hn. destruct j' as [|j'].
        { injection Hn as <-. now left. }
        { apply (L j'); [lia|exact Hn]. }
      * intros w [->|H]; [now left|]. now apply H2.
    + rewrite Z.add_0_r. destruct (0 <? rem x) eqn:R.
      * exists (Some k). split; [reflexivity|]. exists 0%nat, x. apply Z.ltb_lt in R.
        split; [lia|]. repeat split; [exact B|exact R|]. intros j' w' Hj. lia.
      * destruct (IH (S k)) as (o & H1 & H2). exists o. split; [exact H1|].
        apply Z.ltb_ge in R.
        destruct o as [j|].
        { destruct H2 as (i & w & E & N & Bw & Rw & L). exists (S i), w.
          repeat split; auto; [lia|]. intros j' w' Hj Hn. destruct j' as [|j'].
          - injection Hn as <-. now right.
          - apply (L j'); [lia|exact Hn]. }
        { intros w [->|H]; [now right|]. now apply H2. }
Qed.

Lemma static_get_spec ws s bz rem :
  st_inv ws s bz rem ->
  (exists w s', static_get s = Ok (s', w) /\ In w ws /\ bz w = false /\ 0 < rem w /\
     st_inv ws s' (set_fn bz w true) (set_fn rem w (rem w - 1)) /\
     (forall i j w', nth_error ws i = Some w -> nth_error ws j = Some w' -> (j < i)%nat ->
        bz w' = true \/ rem w' <= 0))
  \/ (static_get s = Ok (s, -1) /\ forall w, In w ws -> bz w = true \/ rem w = 0).
Proof.
  intros I. destruct (first_free_spec ws bz rem 0) as (o & H1 & H2).
  destruct I as [ND IR IB IA IF IM]. unfold static_get. rewrite IB, IA, H1. cbn [rbind].
  destruct o as [j|].
  - left. destruct H2 as (i & w & E & N & Bw & Rw & L). cbn in E. subst j.
    exists w. rewrite IR, N. cbn [of_opt rbind].
    eexists. split; [reflexivity|].
    assert (HIn : In w ws) by (eapply nth_error_In; exact N).
    split; [exact HIn|]. split; [exact Bw|]. split; [exact Rw|]. split.
    + constructor; cbn; auto.
      * now apply put_map.
      * apply map_ext. intros x. destruct (Z.eq_dec x w) as [->|E].
        { rewrite !set_fn_eq, Bw. lia. }
        { now rewrite !set_fn_neq by assumption. }
      * rewrite IF. rewrite (filter_set_true ws bz w ND HIn Bw). lia.
      * intros x Hx. destruct (Z.eq_dec x w) as [->|E].
        { rewrite set_fn_eq. lia. }
        { rewrite set_fn_neq by assumption. now apply IM. }
    + intros i' j' w' Hi Hj Hlt. assert (i' = i).
      { eapply NoDup_nth_error_inj; eauto. }
      subst. eapply L; eauto.
  - right. split; [destruct s; reflexivity|]. intros w Hw. destruct (H2 w Hw); [now left|right].
    specialize (IM w Hw). lia.
Qed.

Lemma static_confirm_spec ws s bz rem w :
  st_inv ws s bz rem -> In w ws -> bz w = true ->
  exists s', static_confirm s w = Ok s' /\ st_inv ws s' (set_fn bz w false) rem.
Proof.
  intros [ND IR IB IA IF IM] HIn Bw. unfold static_confirm. rewrite IR.
  destruct (index_of_spec ws w 0 HIn) as (i & H1 & H2). cbn in H1. rewrite H1.
  rewrite IA, nth_error_map', H2. cbn [option_map of_opt rbind].
  eexists. split; [reflexivity|]. constructor; cbn; auto.
  - rewrite IB. now apply put_map.
  - rewrite (put_map ws _ i w) by assumption.
    apply map_ext. intros x. destruct (Z.eq_dec x w) as [->|E].
    + rewrite !set_fn_eq, Bw. lia.
    + now rewrite !set_fn_neq by assumption.
  - rewrite IF, (filter_set_false ws bz w ND HIn Bw). lia.
Qed.

Lemma idle_ranks_spec bz (ws : list Z) :
  idle_ranks (map bz ws) ws = Ok (filter (fun w => negb (bz w)) ws).
Proof.
  induction ws as [|x ws IH]; [reflexivity|].
  cbn. destruct (bz x); cbn; [exact IH|]. rewrite IH. reflexivity.
Qed.

Lemma static_idles_spec ws s bz rem :
  st_inv ws s bz rem -> static_idles s = Ok (filter (fun w => negb (bz w)) ws).
Proof. intros [ND IR IB IA IF IM]. unfold static_idles. rewrite IR, IB. apply idle_ranks_spec. Qed.

(** Position of a worker in the list. *)
Definition pos (ws : list Z) (w : Z) : nat :=
  match index_of ws w 0 with Some i => i | None => 0 end.

Lemma pos_nth ws i w : NoDup ws -> nth_error ws i = Some w -> pos ws w = i.
Proof.
  intros ND E. unfold pos. destruct (index_of_spec ws w 0 (nth_error_In _ _ E)) as (j & H1 & H2).
  rewrite H1. cbn. eapply NoDup_nth_error_inj; eauto.
Qed.

Definition shares (ws : list Z) (runs : Z) (w : Z) : Z :=
  share (Z.of_nat (length ws)) runs (pos ws w).

Lemma map_pos {B} (g : nat -> B) (ws : list Z) : NoDup ws ->
  map g (seq 0 (length ws)) = map (fun w => g (pos ws w)) ws.
Proof.
  intros ND. apply nth_error_ext. intros i. rewrite !nth_error_map'.
  destruct (nth_error ws i) as [w|] eqn:E.
  - assert (L : (i < length ws)%nat) by (eapply nth_error_lt; exact E).
    rewrite nth_error_seq' by exact L. cbn. now rewrite (pos_nth ws i w ND E).
  - apply nth_error_None in E. cbn. assert (N : nth_error (seq 0 (length ws)) i = None).
    { apply nth_error_None. now rewrite seq_length. }
    now rewrite N.
Qed.

Lemma static_init_ok s ws runs :
  NoDup ws -> ws <> [] -> 1 <= runs ->
  exists s', static_init s ws runs = Ok s' /\ st_inv ws s' (fun _ => false) (shares ws runs).
Proof.
  intros ND NE HR. unfold static_init.
  set (n := Z.of_nat (length ws)).
  assert (HN : 0 < n) by (destruct ws; [contradiction|unfold n; cbn [length]; lia]).
  rewrite (proj2 (Z.leb_gt runs 0)) by lia.
  rewrite (proj2 (Z.eqb_neq n 0)) by lia.
  eexists. split; [reflexivity|].
  assert (ED : runs - runs / n * n = runs mod n).
  { rewrite Z.mod_eq by lia. lia. }
  constructor; cbn; auto.
  - rewrite (map_pos (fun i => if Z.of_nat i <? runs - runs / n * n then runs / n + 1 else runs / n) ws ND).
    apply map_ext. intros w. unfold shares, share. fold n. rewrite ED.
    destruct (Z.of_nat (pos ws w) <? runs mod n); lia.
  - unfold n. f_equal. clear. induction ws; cbn; congruence.
  - intros w Hw. unfold shares, share. fold n.
    pose proof (Z.div_pos runs n ltac:(lia) HN).
    destruct (_ <? _); lia.
Qed.

(** The shares add up to the number of runs. *)
Lemma total_of_map {A B} (h : A -> B) (g : B -> Z) l :
  total_of g (map h l) = total_of (fun x => g (h x)) l.
Proof. induction l as [|a l IH]; [reflexivity|]. cbn. fold (total_of g (map h l)). now rewrite IH. Qed.

Lemma total_of_seq_lt q r n : 0 <= r <= Z.of_nat n ->
  total_of (fun i => q + (if Z.of_nat i <? r then 1 else 0)) (seq 0 n) = q * Z.of_nat n + r.
Proof.
  assert (G : forall k m, 0 <= r ->
    total_of (fun i => q + (if Z.of_nat i <? r then 1 else 0)) (seq k m)
    = q * Z.of_nat m + (Z.max 0 (Z.min r (Z.of_nat (k + m)) - Z.of_nat k))).
  { intros k m. revert k. induction m as [|m IH]; intros k Hr.
    - cbn. lia.
    - cbn [seq total_of fold_right]. fold (total_of (fun i => q + (if Z.of_nat i <? r then 1 else 0)) (seq (S k) m)).
      rewrite IH by assumption. destruct (Z.of_nat k <? r) eqn:E.
      + apply Z.ltb_lt in E. lia.
      + apply Z.ltb_ge in E. lia. }
  intros H. rewrite G by lia. lia.
Qed.

Lemma shares_total ws runs : NoDup ws -> ws <> [] -> total_of (shares ws runs) ws = runs.
Proof.
  intros ND NE. unfold shares.
  set (n := Z.of_nat (length ws)).
  assert (HN : 0 < n) by (destruct ws; [contradiction|unfold n; cbn [length]; lia]).
  assert (E : total_of (fun w => share n runs (pos ws w)) ws
              = total_of (share n runs) (seq 0 (length ws))).
  { rewrite <- (total_of_map (pos ws) (share n runs) ws).
    f_equal. rewrite <- (map_id (seq 0 (length ws))). symmetry. apply (map_pos (fun i => i) ws ND). }
  rewrite E. unfold share. pose proof (Z.mod_pos_bound runs n HN) as HB.
  rewrite total_of_seq_lt by (unfold n in *; lia). fold n.
  pose proof (Z.div_mod runs n ltac:(lia)). lia.
Qed.

(** ** Histories *)

(** Every history of calls on a static assignment in which only jobs that were
    handed out are confirmed. *)
Inductive history (s0 : static) : static -> list event -> Prop :=
| h_start : history s0 s0 []
| h_get s h s' r : history s0 s h -> static_get s = Ok (s', r) ->
    history s0 s' (h ++ [Got r])
| h_confirm s h s' r : history s0 s h -> r <> -1 -> back r h < handed r h ->
    static_confirm s r = Ok s' -> history s0 s' (h ++ [Confirmed r]).

Lemma handed_snoc r h e : handed r (h ++ [e]) = handed r h + handed r [e].
Proof. induction h as [|[x|x] h IH]; cbn [app]; [reflexivity| |]; cbn [handed] in *; rewrite IH; lia. Qed.

Lemma back_snoc r h e : back r (h ++ [e]) = back r h + back r [e].
Proof. induction h as [|[x|x] h IH]; cbn [app]; [reflexivity| |]; cbn [back] in *; rewrite IH; lia. Qed.

Lemma handed_nonneg r h : 0 <= handed r h.
Proof. induction h as [|[x|x] h IH]; cbn; [lia| |]; try (destruct (x =? r)); lia. Qed.
Lemma back_nonneg r h : 0 <= back r h.
Proof. induction h as [|[x|x] h IH]; cbn; [lia| |]; try (destruct (x =? r)); lia. Qed.

(** The link between a history and the invariant. *)
Record hist_inv (ws : list Z) (runs : Z) (s : static) (h : list event)
    (bz : Z -> bool) (rem : Z -> Z) : Prop := {
  hi_st : st_inv ws s bz rem;
  hi_share : forall w, In w ws -> handed w h + rem w = shares ws runs w;
  hi_bz : forall w, In w ws -> handed w h = back w h + (if bz w then 1 else 0);
  hi_out : forall r, ~ In r ws -> r <> -1 -> handed r h = 0 /\ back r h = 0;
  hi_minus : back (-1) h = 0 }.

Section Hist.
Variable ws : list Z.
Variable runs : Z.
Variable s1 : static.
Variable s0 : static.
Hypothesis ND : NoDup ws.
Hypothesis NE : ws <> [].
Hypothesis HR : 1 <= runs.
Hypothesis HP : ~ In (-1) ws.
Hypothesis HI : static_init s1 ws runs = Ok s0.

Lemma history_inv s h : history s0 s h ->
  exists bz rem, hist_inv ws runs s h bz rem.
Proof.
  induction 1 as [|s h s' r H IH HG|s h s' r H IH Hr HL HC].
  - destruct (static_init_ok s1 ws runs ND NE HR) as (s & E & I).
    rewrite HI in E. injection E as <-.
    exists (fun _ => false), (shares ws runs). constructor; auto; cbn; auto; intros; lia.
  - destruct IH as (bz & rem & [I1 I2 I3 I4 I5]).
    destruct (static_get_spec ws s bz rem I1) as [(w & t & E & Hw & Bw & Rw & It & _)|(E & _)].
    + rewrite HG in E. injection E as -> ->.
      exists (set_fn bz w true), (set_fn rem w (rem w - 1)). constructor; [exact It| | | |].
      * intros x Hx. rewrite handed_snoc. cbn [handed]. destruct (Z.eq_dec x w) as [->|N].
        { rewrite Z.eqb_refl, set_fn_eq. specialize (I2 w Hw). lia. }
        { rewrite set_fn_neq by assumption. rewrite (proj2 (Z.eqb_neq w x)) by congruence.
          specialize (I2 x Hx). lia. }
      * intros x Hx. rewrite handed_snoc, back_snoc. cbn [handed back]. destruct (Z.eq_dec x w) as [->|N].
        { rewrite Z.eqb_refl, set_fn_eq. specialize (I3 w Hw). rewrite Bw in I3. lia. }
        { rewrite set_fn_neq by assumption. rewrite (proj2 (Z.eqb_neq w x)) by congruence.
          specialize (I3 x Hx). lia. }
      * intros x Hx Hm. rewrite handed_snoc, back_snoc. cbn [handed back].
        rewrite (proj2 (Z.eqb_neq w x)) by congruence. destruct (I4 x Hx Hm). lia.
      * rewrite back_snoc. cbn [back]. lia.
    + rewrite HG in E. injection E as -> ->.
      exists bz, rem. constructor; [exact I1| | | |].
      * intros x Hx. rewrite handed_snoc. cbn [handed].
        rewrite (proj2 (Z.eqb_neq (-1) x)) by congruence. specialize (I2 x Hx). lia.
      * intros x Hx. rewrite handed_snoc, back_snoc. cbn [handed back].
        rewrite (proj2 (Z.eqb_neq (-1) x)) by congruence. specialize (I3 x Hx). lia.
      * intros x Hx Hm. rewrite handed_snoc, back_snoc. cbn [handed back].
        rewrite (proj2 (Z.eqb_neq (-1) x)) by congruence. destruct (I4 x Hx Hm). lia.
      * rewrite back_snoc. cbn [back]. lia.
  - destruct IH as (bz & rem & [I1 I2 I3 I4 I5]).
    destruct (in_dec Z.eq_dec r ws) as [Hw|Hw].
    2:{ destruct (I4 r Hw Hr). lia. }
    assert (Bw : bz r = true).
    { specialize (I3 r Hw). destruct (bz r); [reflexivity|lia]. }
    destruct (static_confirm_spec ws s bz rem r I1 Hw Bw) as (t & E & It).
    rewrite HC in E. injection E as <-.
    exists (set_fn bz r false), rem. constructor; [exact It| | | |].
    + intros x Hx. rewrite handed_snoc. cbn [handed]. specialize (I2 x Hx). lia.
    + intros x Hx. rewrite handed_snoc, back_snoc. cbn [handed back]. destruct (Z.eq_dec x r) as [->|N].
      { rewrite Z.eqb_refl, set_fn_eq. specialize (I3 r Hw). rewrite Bw in I3. lia. }
      { rewrite set_fn_neq by assumption. rewrite (proj2 (Z.eqb_neq r x)) by congruence.
        specialize (I3 x Hx). lia. }
    + intros x Hx Hm. rewrite handed_snoc, back_snoc. cbn [handed back].
      rewrite (proj2 (Z.eqb_neq r x)) by congruence. destruct (I4 x Hx Hm). lia.
    + rewrite back_snoc. cbn [back]. rewrite (proj2 (Z.eqb_neq r (-1))) by assumption. lia.
Qed.

(** What get answers after any history. *)
Lemma get_after s h : history s0 s h ->
  exists s' r, static_get s = Ok (s', r) /\
  ((exists i, nth_error ws i = Some r /\ idle h r = true /\
      handed r h < share (Z.of_nat (length ws)) runs i /\
      forall j w, (j < i)%nat -> nth_error ws j = Some w ->
        idle h w = false \/ handed w h = share (Z.of_nat (length ws)) runs j)
   \/ (r = -1 /\ forall j w, nth_error ws j = Some w ->
        idle h w = false \/ handed w h = share (Z.of_nat (length ws)) runs j)).
Proof.
  intros H. destruct (history_inv s h H) as (bz & rem & [I1 I2 I3 I4 I5]).
  assert (ID : forall w, In w ws -> idle h w = negb (bz w)).
  { intros w Hw. unfold idle. rewrite (I3 w Hw). destruct (bz w); cbn.
    - apply Z.eqb_neq. lia.
    - apply Z.eqb_eq. lia. }
  assert (SH : forall j w, nth_error ws j = Some w -> shares ws runs w = share (Z.of_nat (length ws)) runs j).
  { intros j w Hj. unfold shares. now rewrite (pos_nth ws j w ND Hj). }
  destruct (static_get_spec ws s bz rem I1) as [(w & t & E & Hw & Bw & Rw & It & L)|(E & L)].
  - exists t, w. split; [exact E|]. left.
    destruct (In_nth_error ws w Hw) as (i & Hi). exists i. split; [exact Hi|]. split.
    { rewrite (ID w Hw), Bw. reflexivity. }
    split.
    { rewrite <- (SH i w Hi). specialize (I2 w Hw). lia. }
    intros j w' Hj Hn. assert (Hw' : In w' ws) by (eapply nth_error_In; exact Hn).
    destruct (L i j w' Hi Hn Hj) as [B|R].
    + left. now rewrite (ID w' Hw'), B.
    + right. rewrite <- (SH j w' Hn). specialize (I2 w' Hw').
      pose proof (si_rem ws s bz rem I1 w' Hw'). lia.
  - exists s, (-1). split; [exact E|]. right. split; [reflexivity|].
    intros j w Hn. assert (Hw : In w ws) by (eapply nth_error_In; exact Hn).
    destruct (L w Hw) as [B|R].
    + left. now rewrite (ID w Hw), B.
    + right. rewrite <- (SH j w Hn). specialize (I2 w Hw). lia.
Qed.

(** Confirming an outstanding job succeeds. *)
Lemma confirm_after s h r : history s0 s h -> r <> -1 -> back r h < handed r h ->
  exists s', static_confirm s r = Ok s'.
Proof.
  intros H Hr HL. destruct (history_inv s h H) as (bz & rem & [I1 I2 I3 I4 I5]).
  destruct (in_dec Z.eq_dec r ws) as [Hw|Hw].
  2:{ destruct (I4 r Hw Hr). lia. }
  assert (Bw : bz r = true).
  { specialize (I3 r Hw). destruct (bz r); [reflexivity|lia]. }
  destruct (static_confirm_spec ws s bz rem r I1 Hw Bw) as (t & E & It). now exists t.
Qed.

(** The counters and the list of idle workers after any history. *)
Lemma state_after s h : history s0 s h ->
  static_idles s = Ok (filter (idle h) ws) /\
  static_avail s = Z.of_nat (length (filter (idle h) ws)) /\
  (forall i w, nth_error ws i = Some w ->
     0 <= handed w h <= share (Z.of_nat (length ws)) runs i /\
     0 <= handed w h - back w h <= 1) /\
  total_of (fun w => handed w h) ws <= runs.
Proof.
  intros H. destruct (history_inv s h H) as (bz & rem & [I1 I2 I3 I4 I5]).
  assert (ID : forall w, In w ws -> idle h w = negb (bz w)).
  { intros w Hw. unfold idle. rewrite (I3 w Hw). destruct (bz w); cbn.
    - apply Z.eqb_neq. lia.
    - apply Z.eqb_eq. lia. }
  assert (EF : filter (idle h) ws = filter (fun w => negb (bz w)) ws).
  { apply filter_ext_in. exact ID. }
  split; [rewrite EF; eapply static_idles_spec; exact I1|].
  split; [rewrite EF; apply (si_free ws s bz rem I1)|].
  split.
  - intros i w Hi. assert (Hw : In w ws) by (eapply nth_error_In; exact Hi).
    specialize (I2 w Hw). specialize (I3 w Hw).
    pose proof (si_rem ws s bz rem I1 w Hw). pose proof (handed_nonneg w h).
    unfold shares in I2. rewrite (pos_nth ws i w ND Hi) in I2.
    split; [lia|]. destruct (bz w); lia.
  - rewrite <- (shares_total ws runs ND NE) at 1.
    assert (G : forall l, incl l ws -> total_of (fun w => handed w h) l <= total_of (shares ws runs) l).
    { induction l as [|x l IH]; intros HL; [cbn; lia|].
      cbn. fold (total_of (fun w => handed w h) l). fold (total_of (shares ws runs) l).
      assert (Hx : In x ws) by (apply HL; now left).
      specialize (IH (fun y Hy => HL y (or_intror Hy))). specialize (I2 x Hx).
      pose proof (si_rem ws s bz rem I1 x Hx). lia. }
    apply G. apply incl_refl.
Qed.

(** When everybody is idle and get has no one left, each worker has had exactly
    its share. *)
Lemma exhausted s h : history s0 s h ->
  (forall w, In w ws -> idle h w = true) -> static_get s = Ok (s, -1) ->
  (forall i w, nth_error ws i = Some w -> handed w h = share (Z.of_nat (length ws)) runs i) /\
  total_of (fun w => handed w h) ws = runs.
Proof.
  intros H HA HG. destruct (get_after s h H) as (s' & r & E & C).
  rewrite HG in E. injection E as <- <-.
  assert (G : forall i w, nth_error ws i = Some w -> handed w h = share (Z.of_nat (length ws)) runs i).
  { destruct C as [(i & Hi & _)|(_ & C)].
    - exfalso. apply HP. eapply nth_error_In. exact Hi.
    - intros i w Hi. destruct (C i w Hi) as [B|B]; [|exact B].
      rewrite HA in B; [discriminate|]. eapply nth_error_In. exact Hi. }
  split; [exact G|].
  rewrite <- (shares_total ws runs ND NE) at 1. apply total_of_ext.
  intros w Hw. destruct (In_nth_error ws w Hw) as (i & Hi).
  rewrite (G i w Hi). unfold shares. now rewrite (pos_nth ws i w ND Hi).
Qed.

(** Conversely, as long as fewer than [runs] jobs were handed out, either some
    worker is busy or get finds one. *)
Lemma not_exhausted s h : history s0 s h ->
  total_of (fun w => handed w h) ws < runs ->
  (exists w, In w ws /\ idle h w = false) \/
  exists s' r, static_get s = Ok (s', r) /\ In r ws.
Proof.
  intros H HT. destruct (get_after s h H) as (s' & r & E & [(i & Hi & _)|(Er & C)]).
  - right. exists s', r. split; [exact E|]. eapply nth_error_In. exact Hi.
  - left. destruct (forallb (idle h) ws) eqn:F.
    + exfalso. rewrite forallb_forall in F.
      assert (X : total_of (fun w => handed w h) ws = runs); [|lia].
      rewrite <- (shares_total ws runs ND NE) at 1. apply total_of_ext.
      intros w Hw. destruct (In_nth_error ws w Hw) as (i & Hi).
      destruct (C i w Hi) as [B|B]; [rewrite (F w Hw) in B; discriminate|].
      rewrite B. unfold shares. now rewrite (pos_nth ws i w ND Hi).
    + clear -F. induction ws as [|x l IH]; [discriminate|].
      cbn in F. destruct (idle h x) eqn:B.
      * destruct IH as (w & Hw & Hb); [exact F|]. exists w. split; [now right|exact Hb].
      * exists x. split; [now left|exact B].
Qed.

End Hist.
