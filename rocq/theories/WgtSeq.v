(** Proofs about the weight strategies. *)
From Coq Require Import List Bool Arith QArith Qabs Qminmax Lia Lqa Sorted Permutation.
From Verif Require Import Lib Outcome OrderSpec BoundsModel BoundsProofs ParetoModel ParetoSpec ParetoProofs ArchModel ArchProofs WgtModel WgtSpec WgtScal.
From Coq Require Import List.
Import ListNotations.
Local Open Scope Q_scope.

Lemma natq_nonneg n : 0 <= natq n.
Proof. unfold natq. change 0 with (inject_Z 0). rewrite <- Zle_Qle. lia. Qed.
Lemma natq_plus a b : natq (a + b) == natq a + natq b.
Proof. unfold natq. rewrite Nat2Z.inj_add, inject_Z_plus. reflexivity. Qed.
Lemma natq_S n : natq (S n) == natq n + 1.
Proof. replace (S n) with (n + 1)%nat by lia. rewrite natq_plus. reflexivity. Qed.
Lemma natq_pos n : (0 < n)%nat -> 0 < natq n.
Proof. intros H. unfold natq. change 0 with (inject_Z 0). rewrite <- Zlt_Qlt. lia. Qed.
Lemma natq_le a b : (a <= b)%nat -> natq a <= natq b.
Proof. intros H. unfold natq. rewrite <- Zle_Qle. lia. Qed.

(** ** the enumeration of the fractions *)
Section Fractions.
Local Open Scope nat_scope.
Lemma coprim_ok : forall fuel a b, b < fuel -> coprim fuel a b = (Nat.gcd a b =? 1).
Proof.
  induction fuel as [|fuel IH]; intros a b H; [lia|]. cbn [coprim]. destruct (Nat.eqb_spec b 0) as [->|Nb]; [rewrite Nat.gcd_0_r; reflexivity|].
  assert (M := Nat.mod_upper_bound a b Nb). rewrite IH by lia. rewrite (Nat.gcd_comm b), Nat.gcd_mod, Nat.gcd_comm by lia. reflexivity.
Qed.
Lemma skip_ok depth : forall fuel num, depth - num <= fuel ->
  let r := skip fuel depth num in num <= r /\ (depth <= r \/ Nat.gcd depth r = 1) /\ (num <= depth -> r <= depth) /\ forall k, num <= k < r -> Nat.gcd depth k <> 1.
Proof.
  induction fuel as [|fuel IH]; intros num H; cbn [skip]; [split; [lia|split; [left; lia|split; [lia|lia]]]|].
  destruct (Nat.ltb_spec num depth) as [L|L]; cbn [andb]; [|split; [lia|split; [left; lia|split; [lia|lia]]]].
  rewrite coprim_ok by lia. destruct (Nat.eqb_spec (Nat.gcd depth num) 1) as [G|G]; cbn [negb]; [split; [lia|split; [right; exact G|split; [lia|lia]]]|].
  destruct (IH (S num) ltac:(lia)) as (H1 & H2 & H3 & H4). split; [lia|]. split; [exact H2|]. split; [lia|]. intros k Hk. destruct (Nat.eq_dec k num) as [->|]; [exact G|apply H4; lia].
Qed.
(** one call: the first reduced fraction from (num, depth) on *)
Lemma qexplore_step d n : 1 <= d -> 1 <= n <= d -> exists p q, qexplore (QState d n) = ((fraction (p, q), 1 - fraction (p, q))%Q, QState q (S p)) /\ reduced p q /\
  ~ before (p, q) (n, d) /\ forall f, reduced (fst f) (snd f) -> ~ before f (n, d) -> ~ before f (p, q).
Proof.
  intros Hd Hn. unfold qexplore. cbn [q_depth q_num]. destruct (Nat.eqb_spec d 0) as [|_]; [lia|].
  destruct (skip_ok d d n ltac:(lia)) as (H1 & H2 & H3 & H4). set (r := skip d d n) in *. specialize (H3 ltac:(lia)).
  destruct (Nat.leb_spec d r) as [L|L].
  - exists 1, (S d). split; [reflexivity|]. split; [|split].
    + split; [lia|]. apply Nat.gcd_1_l.
    + unfold before. cbn [fst snd]. lia.
    + intros [p' q'] [R1 R2] B. unfold before in *. cbn [fst snd] in *. intros [X|[X Y]]; [|lia].
      assert (q' = d) as -> by lia. apply (H4 p'); [lia|]. rewrite Nat.gcd_comm. exact R2.
  - exists r, d. split; [reflexivity|]. split; [|split].
    + split; [lia|]. rewrite Nat.gcd_comm. destruct H2; [lia|assumption].
    + unfold before. cbn [fst snd]. lia.
    + intros [p' q'] [R1 R2] B. unfold before in *. cbn [fst snd] in *. intros [X|[-> Y]]; [lia|].
      apply (H4 p'); [lia|]. rewrite Nat.gcd_comm. exact R2.
Qed.
Lemma before_trans a b c : before a b -> before b c -> before a c.
Proof. unfold before. lia. Qed.
Lemma not_before a b : ~ before a b <-> a = b \/ before b a.
Proof.
  unfold before. destruct a as [p q], b as [p' q']. cbn [fst snd]. split.
  - intros H. destruct (Nat.eq_dec q q') as [->|]; [|right; lia]. destruct (Nat.eq_dec p p') as [->|]; [left; reflexivity|right; lia].
  - intros [E|H]; [inversion E; lia|lia].
Qed.
Lemma enumerates : forall k d n, 1 <= d -> 1 <= n <= d -> exists fs, calls qexplore k (QState d n) = map (fun f => (fraction f, 1 - fraction f)%Q) fs /\ length fs = k /\
  StronglySorted before fs /\ (forall f, In f fs -> reduced (fst f) (snd f) /\ ~ before f (n, d)) /\
  forall f, reduced (fst f) (snd f) -> ~ before f (n, d) -> (exists g, In g fs /\ before f g) -> In f fs.
Proof.
  induction k as [|k IH]; intros d n Hd Hn; cbn [calls].
  - exists []. split; [reflexivity|]. split; [reflexivity|]. split; [constructor|]. split; [intros f []|]. intros f _ _ (g & [] & _).
  - destruct (qexplore_step d n Hd Hn) as (p & q & E & R & B & M). rewrite E. assert (Rq := R). destruct Rq as [Rq _].
    destruct (IH q (S p) ltac:(lia) ltac:(lia)) as (fs & Ef & L & S' & Hin & Hc). exists ((p, q) :: fs). rewrite Ef. split; [reflexivity|]. split; [cbn; lia|]. split; [|split].
    + constructor; [exact S'|]. apply Forall_forall. intros f Hf. destruct (Hin f Hf) as [_ G]. unfold before in *. cbn [fst snd] in *. lia.
    + intros f [<-|Hf]; [split; [exact R|exact B]|]. destruct (Hin f Hf) as [G1 G2]. split; [exact G1|]. unfold before in *. cbn [fst snd] in *. lia.
    + intros f Rf Bf (g & Hg & Bg). specialize (M f Rf Bf). destruct Hg as [<-|Hg]; [contradiction|]. apply not_before in M as [->|M]; [left; reflexivity|]. right. apply Hc; [exact Rf| |eauto].
      unfold before in *. cbn [fst snd] in *. lia.
Qed.
(** enough calls reach every fraction *)
Definition rank (f : nat * nat) : nat := snd f * snd f + fst f.
Lemma rank_before a b : reduced (fst a) (snd a) -> before a b -> rank a < rank b.
Proof. intros [H _] [B|[B1 B2]]; unfold rank; nia. Qed.
Lemma ranks_nodup fs : StronglySorted before fs -> (forall f, In f fs -> reduced (fst f) (snd f)) -> NoDup (map rank fs).
Proof.
  induction 1 as [|f fs S' IH F]; intros R; cbn [map]; constructor.
  - intros H. apply in_map_iff in H as (g & E & Hg). rewrite Forall_forall in F. pose proof (rank_before f g (R f (or_introl eq_refl)) (F g Hg)). lia.
  - apply IH. intros g Hg. apply R. right. exact Hg.
Qed.
Lemma some_after f fs : StronglySorted before fs -> (forall g, In g fs -> reduced (fst g) (snd g)) -> reduced (fst f) (snd f) -> rank f + 1 < length fs -> exists g, In g fs /\ before f g.
Proof.
  intros S' R Rf L. destruct (existsb (fun g => (snd f <? snd g) || ((snd f =? snd g) && (fst f <? fst g))) fs) eqn:E.
  - apply existsb_exists in E as (g & Hg & E). exists g. split; [exact Hg|]. apply orb_true_iff in E as [E|E]; [left; apply Nat.ltb_lt; exact E|]. apply andb_true_iff in E as [E1 E2]. right. split; [apply Nat.eqb_eq; exact E1|apply Nat.ltb_lt; exact E2].
  - exfalso. assert (I : incl (map rank fs) (seq 0 (rank f + 1))).
    { intros r Hr. apply in_map_iff in Hr as (g & <- & Hg). apply in_seq. split; [lia|]. assert (N : ~ before f g).
      { intros B. assert (X : existsb (fun g => (snd f <? snd g) || ((snd f =? snd g) && (fst f <? fst g))) fs = true); [|congruence].
        apply existsb_exists. exists g. split; [exact Hg|]. apply orb_true_iff. destruct B as [B|[B1 B2]]; [left; apply Nat.ltb_lt; exact B|right; apply andb_true_iff; split; [apply Nat.eqb_eq; exact B1|apply Nat.ltb_lt; exact B2]]. }
      apply not_before in N as [->|N]; [lia|]. pose proof (rank_before g f (R g Hg) N). lia. }
    apply NoDup_incl_length in I; [|apply ranks_nodup; assumption]. rewrite map_length, seq_length in I. lia.
Qed.
End Fractions.

(** ** fixed steps *)
Definition value (step : Q) (n k : nat) : Q := match k with O => 0 | S j => Qmin 1 (natq (S (j mod n)) * step) end.
Section Steps.
Variables (step : Q) (n : nat).
Hypothesis step_pos : 0 < step.
Hypothesis n_pos : (1 <= n)%nat.
Hypothesis n_last : 1 <= natq n * step.
Hypothesis n_first : natq (n - 1) * step < 1.
Lemma qmin_cases a b : (Qmin a b == a /\ a <= b) \/ (Qmin a b == b /\ b <= a).
Proof. destruct (Q.min_spec a b) as [[H E]|[H E]]; [left|right]; split; try exact E; lra. Qed.
Lemma value_zero_le k : 0 <= value step n k.
Proof.
  destruct k as [|j]; cbn [value]; [lra|]. destruct (qmin_cases 1 (natq (S (j mod n)) * step)) as [[E _]|[E _]]; rewrite E; [lra|].
  apply Qmult_le_0_compat; [apply natq_nonneg|lra].
Qed.
Lemma value_one k : value step n k == 1 <-> (0 < k /\ k mod n = 0)%nat.
Proof.
  destruct k as [|j]; cbn [value]; [split; [intros H; lra|lia]|].
  assert (M := Nat.mod_upper_bound j n ltac:(lia)). assert (SM : (S j mod n = if S (j mod n) =? n then 0 else S (j mod n))%nat).
  { destruct (Nat.eqb_spec (S (j mod n)) n) as [E|E].
    - symmetry. apply Nat.mod_unique with (S (j / n)); [lia|]. pose proof (Nat.div_mod j n ltac:(lia)). nia.
    - symmetry. apply Nat.mod_unique with (j / n)%nat; [lia|]. pose proof (Nat.div_mod j n ltac:(lia)). lia. }
  rewrite SM. destruct (Nat.eqb_spec (S (j mod n)) n) as [E|E].
  - rewrite E. destruct (qmin_cases 1 (natq n * step)) as [[X _]|[X Y]]; [split; [lia|intros _; exact X]|]. split; [lia|]. intros _. lra.
  - split; [|lia]. intros H. exfalso. assert (L : natq (S (j mod n)) * step <= natq (n - 1) * step) by (apply Qmult_le_compat_r; [apply natq_le; lia|lra]).
    destruct (qmin_cases 1 (natq (S (j mod n)) * step)) as [[X Y]|[X Y]]; lra.
Qed.
Lemma value_next k c : c == value step n k ->
  (if Qeq_bool c 1 then (if qltb 1 (0 + step) then 1 else 0 + step) else (if qltb 1 (c + step) then 1 else c + step)) == value step n (S k).
Proof.
  intros Hc. destruct (Qeq_bool c 1) eqn:E.
  - apply Qeq_bool_iff in E. rewrite Hc in E. apply value_one in E as [E1 E2]. cbn [value]. rewrite E2. change (natq 1) with 1.
    destruct (qltb 1 (0 + step)) eqn:L; [apply qltb_lt in L|apply qltb_ge in L]; destruct (qmin_cases 1 (1 * step)) as [[X Y]|[X Y]]; lra.
  - assert (N : ~ (0 < k /\ k mod n = 0)%nat). { intros H. apply value_one in H. rewrite <- Hc in H. apply Qeq_bool_iff in H. congruence. }
    assert (V : value step n k == natq (k mod n) * step).
    { destruct k as [|j]; cbn [value]; [rewrite Nat.mod_0_l by lia; change (natq 0) with 0; ring|].
      assert (M := Nat.mod_upper_bound j n ltac:(lia)). assert (SM : (S j mod n = S (j mod n))%nat).
      { destruct (Nat.eq_dec (S (j mod n)) n) as [E'|E']; [exfalso; apply N; split; [lia|]|symmetry; apply Nat.mod_unique with (j / n)%nat; [lia|]; pose proof (Nat.div_mod j n ltac:(lia)); lia].
        symmetry. apply Nat.mod_unique with (S (j / n)); [lia|]. pose proof (Nat.div_mod j n ltac:(lia)). nia. }
      rewrite SM. assert (L : natq (S (j mod n)) * step <= natq (n - 1) * step).
      { apply Qmult_le_compat_r; [|lra]. apply natq_le. rewrite <- SM. pose proof (Nat.mod_upper_bound (S j) n ltac:(lia)). lia. }
      destruct (qmin_cases 1 (natq (S (j mod n)) * step)) as [[X Y]|[X Y]]; lra. }
    cbn [value]. rewrite V in Hc. assert (T : natq (S (k mod n)) * step == c + step) by (rewrite natq_S, Hc; ring).
    destruct (qltb 1 (c + step)) eqn:L; [apply qltb_lt in L|apply qltb_ge in L]; destruct (qmin_cases 1 (natq (S (k mod n)) * step)) as [[X Y]|[X Y]]; lra.
Qed.
Lemma one_direction_calls : forall m k c j w, c == value step n k -> nth_error (calls (one_direction step) m c) j = Some w -> fst w == value step n (k + j) /\ snd w == 1 - value step n (k + j).
Proof.
  induction m as [|m IH]; intros k c j w Hc H; cbn [calls] in H; [destruct j; discriminate|].
  pose proof (value_next k c Hc) as Nx. unfold one_direction in H at 1. destruct (Qeq_bool c 1) eqn:E; (destruct j as [|j]; cbn [nth_error] in H).
  - inversion H; subst. cbn [fst snd]. apply Qeq_bool_iff in E. rewrite Nat.add_0_r. split; lra.
  - replace (k + S j)%nat with (S k + j)%nat by lia. exact (IH (S k) _ j w Nx H).
  - inversion H; subst. cbn [fst snd]. rewrite Nat.add_0_r. split; lra.
  - replace (k + S j)%nat with (S k + j)%nat by lia. exact (IH (S k) _ j w Nx H).
Qed.
End Steps.
Lemma both_weights step : 0 < step -> forall m c d j w, 0 <= c <= 1 -> nth_error (calls (both_directions step) m (c, d)) j = Some w -> two_weights w.
Proof.
  intros P. induction m as [|m IH]; intros c d j w Hc H; cbn [calls] in H; [destruct j; discriminate|].
  assert (B : forall x, 0 <= x <= 1 -> 0 <= (if qltb 1 (x + step) then 1 else x + step) <= 1).
  { intros x Hx. destruct (qltb 1 (x + step)) eqn:L; [apply qltb_lt in L|apply qltb_ge in L]; lra. }
  unfold both_directions in H at 1. destruct (Qeq_bool c 1) eqn:E; (destruct j as [|j]; cbn [nth_error] in H).
  - inversion H; subst. unfold two_weights. destruct d; cbn [negb fst snd]; lra.
  - refine (IH _ _ j w _ H). apply B. lra.
  - inversion H; subst. unfold two_weights. destruct d; cbn [negb fst snd]; lra.
  - refine (IH _ _ j w _ H). apply B. lra.
Qed.

(** ** halving *)
Definition a_good (s : astate) : Prop :=
  (a_depth s <= 2)%nat /\ (a_depth s = 0%nat -> a_list s = []) /\ (a_depth s <> 0%nat -> a_list s <> [] /\ 0 <= a_old1 s <= 1 /\ 0 <= a_old2 s <= 1) /\ forall x, In x (a_list s) -> 0 <= x <= 1.
Lemma anytime_step s : a_good s -> exists w s', anytime s = (Some w, s') /\ two_weights w /\ a_good s'.
Proof.
  intros (D & Z & N & B). unfold anytime. destruct (a_depth s <? 2)%nat eqn:E.
  - apply Nat.ltb_lt in E. do 2 eexists. split; [reflexivity|]. split.
    + unfold two_weights. cbn [fst snd]. assert (natq (a_depth s) == 0 \/ natq (a_depth s) == 1) as [H|H]; [|lra|lra]. destruct (a_depth s) as [|[|k]]; [left; reflexivity|right; reflexivity|lia].
    + unfold a_good. cbn [a_depth a_list a_old1 a_old2]. split; [lia|]. split; [lia|]. split.
      * intros _. split; [|lra]. destruct (Nat.eqb_spec (a_depth s) 0) as [E0|E0]; [destruct (a_list s); discriminate|apply N; exact E0].
      * intros x Hx. destruct (a_depth s =? 0)%nat; [|apply B; exact Hx]. apply in_app_or in Hx as [Hx|[<-|[]]]; [apply B; exact Hx|lra].
  - apply Nat.ltb_ge in E. destruct (N ltac:(lia)) as (Nl & O1 & O2). destruct (a_list s) as [|w l] eqn:El; [congruence|]. do 2 eexists. split; [reflexivity|].
    pose proof (B w (or_introl eq_refl)) as Bw. split; [unfold two_weights; cbn [fst snd]; lra|]. unfold a_good. cbn [a_depth a_list a_old1 a_old2]. split; [lia|]. split; [lia|]. split.
    + intros _. split; [destruct l; discriminate|]. lra.
    + assert (H1 : (w + a_old1 s) / 2 == (w + a_old1 s) * (1 # 2)) by field. assert (H2 : (w + a_old2 s) / 2 == (w + a_old2 s) * (1 # 2)) by field.
      intros x Hx. apply in_app_or in Hx as [Hx|[<-|[<-|[]]]]; [apply B; right; exact Hx| |]; [rewrite H1|rewrite H2]; lra.
Qed.
Lemma anytime_all : forall m s j w, a_good s -> nth_error (anytime_calls m s) j = Some w -> exists v, w = Some v /\ two_weights v.
Proof.
  induction m as [|m IH]; intros s j w G H; cbn [anytime_calls] in H; [destruct j; discriminate|]. destruct (anytime_step s G) as (v & s' & E & T & G'). rewrite E in H.
  destruct j as [|j]; cbn [nth_error] in H; [inversion H; subst; eauto|]. exact (IH s' j w G' H).
Qed.

(** ** sums *)
Lemma total_map_div l s : total_of (map (fun x => x / s) l) == total_of l / s.
Proof. induction l as [|x l IH]; cbn [map total_of fold_right]; [unfold Qdiv; ring|]. unfold total_of in IH. rewrite IH. unfold Qdiv. ring. Qed.
Lemma rand_ok draws : (forall x, In x draws -> 0 <= x) -> (exists x, In x draws /\ 0 < x) -> length (rand_weights draws) = length draws /\ total_of (rand_weights draws) == 1 /\ forall w, In w (rand_weights draws) -> 0 <= w <= 1.
Proof.
  intros P (x & Hx & Px). unfold rand_weights. cbv zeta. pose proof (plus_loop draws 0) as S. pose proof (total_member draws x P Hx) as T.
  set (s := fold_left Qplus draws 0) in *. split; [apply map_length|]. split.
  - rewrite total_map_div, S, Qplus_0_l. field. lra.
  - intros w Hw. apply in_map_iff in Hw as (y & <- & Hy). pose proof (P y Hy). pose proof (total_member draws y P Hy). split; [apply Qle_shift_div_l; lra|apply Qle_shift_div_r; lra].
Qed.
Lemma dummy_ok n : (0 < n)%nat -> length (dummy_weights n) = n /\ total_of (dummy_weights n) == 1 /\ forall w, In w (dummy_weights n) -> w == 1 / natq n.
Proof.
  intros H. unfold dummy_weights. split; [apply repeat_length|]. split; [|intros w Hw; apply repeat_spec in Hw; rewrite Hw; reflexivity].
  assert (G : forall m x, total_of (repeat x m) == natq m * x). { induction m as [|m IH]; intros x; cbn [repeat total_of fold_right]; [change (natq 0) with 0; ring|]. unfold total_of in IH. rewrite IH, natq_S. ring. }
  rewrite G. pose proof (natq_pos n H). field. lra.
Qed.
