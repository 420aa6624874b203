(** The dominance matrix in the terms of the specification (C45). *)
From Coq Require Import List Arith Lia Bool ZArith Sorted Permutation.
From Verif Require Import Outcome Lib TopoModel TopoSpec TopoProofs RankSpec RankProofs DomModel DomSpec DomProofs.
Import ListNotations.

Lemma how_many_count n (P : nat -> Prop) (p : nat -> bool) : (forall i, i < n -> (p i = true <-> P i)) -> how_many n P (count n p).
Proof.
  intros H. exists (filter p (seq 0 n)). split; [apply NoDup_filter, seq_NoDup|]. split; [|reflexivity].
  intros i. rewrite filter_In, in_seq. split; [intros [Hi Hp]; split; [lia|apply H; auto; lia]|intros [Hi Hp]; split; [lia|apply H; auto]].
Qed.
Definition zsum (l : list Z) : Z := fold_right Z.add 0%Z l.
Lemma zsum_app l m : zsum (l ++ m) = (zsum l + zsum m)%Z.
Proof. induction l as [|x l IH]; cbn; auto. unfold zsum in *. rewrite IH. lia. Qed.
Lemma zc_sum n (P : nat -> bool) : zc n P = zsum (map (fun i => Z.b2z (P i)) (seq 0 n)).
Proof. unfold zc, count. generalize (seq 0 n). induction l as [|x l IH]; cbn; auto. unfold zsum in IH. rewrite <- IH. destruct (P x); cbn [length Z.b2z]; lia. Qed.
Lemma zsum_swap (f : nat -> nat -> Z) l m : zsum (map (fun a => zsum (map (f a) m)) l) = zsum (map (fun b => zsum (map (fun a => f a b) l)) m).
Proof.
  induction l as [|a l IH]; cbn [map zsum fold_right]; [induction m; cbn; auto|]. fold (zsum (map (f a) m)).
  change (fold_right Z.add 0%Z (map (fun a0 => zsum (map (f a0) m)) l)) with (zsum (map (fun a0 => zsum (map (f a0) m)) l)). rewrite IH. clear IH.
  induction m as [|b m IH]; cbn [map zsum fold_right] in *; auto. unfold zsum in *. lia.
Qed.
Lemma nth_seq_map (l : list Z) n (f : nat -> Z) : length l = n -> (forall a, a < n -> nth a l 0%Z = f a) -> l = map f (seq 0 n).
Proof.
  intros L H. apply nth_error_ext. intros i. destruct (Nat.lt_ge_cases i n) as [Hi|Hi].
  - rewrite nth_error_map', nth_error_seq' by lia. cbn. rewrite <- H by auto. apply nth_error_nth'. lia.
  - rewrite !nth_error_ge; auto; rewrite ?map_length, ?seq_length; lia.
Qed.

Section Final.
Context {V : Type}.
Variable dominated same : V -> V -> bool.
Variable nocopy : bool.
Variables pop1 pop2 : list V.
Notation vs := (pop1 ++ pop2).
Notation n := (length pop1 + length pop2).
Notation D := (fun a b => dominated a b = true).
Notation Eq := (fun a b => same a b = true).
Hypothesis asym : forall a b, In a vs -> In b vs -> dominated a b = true -> dominated b a = false.
Hypothesis apart : forall a b, In a vs -> In b vs -> same a b = true -> dominated a b = false /\ dominated b a = false.

Lemma le_dom k l : le_ dominated pop1 pop2 k l = true <-> dominated_at D vs k l.
Proof.
  unfold le_, dominated_at. split.
  - destruct (nth_error vs k) as [a|], (nth_error vs l) as [b|]; try discriminate. intros H. eauto.
  - intros (a & b & -> & -> & H). auto.
Qed.
Lemma le_asym k l : le_ dominated pop1 pop2 k l = true -> le_ dominated pop1 pop2 l k = false.
Proof.
  unfold le_. destruct (nth_error vs k) as [a|] eqn:Ea, (nth_error vs l) as [b|] eqn:Eb; try discriminate. apply asym; eapply nth_error_In; eauto.
Qed.
Lemma cells a b : a < n -> b < n -> cell_after dominated pop1 pop2 (pairs n) a b = le_ dominated pop1 pop2 b a.
Proof.
  intros Ha Hb. unfold cell_after. destruct (le_ dominated pop1 pop2 b a) eqn:L; auto. cbn [andb].
  rewrite (le_asym _ _ L). cbn. rewrite andb_true_r. apply orb_true_iff. rewrite !mem2_In, !pairs_In.
  destruct (Nat.lt_trichotomy a b) as [|[->|]]; auto. rewrite (le_asym _ _ L) in L. discriminate.
Qed.
Lemma copies x : x < n -> (copy_after dominated same nocopy pop1 pop2 (pairs n) x <-> nocopy = true /\ repeats Eq vs x).
Proof.
  intros Hx. unfold copy_after, repeats. split; intros (Hn & H); (split; [auto|]).
  - destruct H as (k & Hk & _ & _ & H). apply pairs_In in Hk. unfold eq_ in H.
    destruct (nth_error vs k) as [a|] eqn:Ea, (nth_error vs x) as [b|] eqn:Eb; try discriminate. exists k, a, b. repeat split; auto; lia.
  - destruct H as (k & a & b & Hk & Ea & Eb & H). exists k. split; [apply pairs_In; lia|]. unfold le_, eq_. rewrite Ea, Eb.
    destruct (apart a b) as [A B]; auto; eapply nth_error_In; eauto.
Qed.

Lemma matrix_ok : exists s, dominance_matrix dominated same nocopy pop1 pop2 [] = Ok s /\
  is_graph n (mat s) (beats D Eq nocopy vs) /\
  (length (cnt s) = n /\ forall k z, nth_error (cnt s) k = Some z -> exists c, how_many n (beats D Eq nocopy vs k) c /\ z = Z.of_nat c) /\
  (length (rnk s) = n /\ forall l z, nth_error (rnk s) l = Some z -> exists c, how_many n (fun k => beats D Eq nocopy vs k l) c /\ z = Z.of_nat c) /\
  zsum (cnt s) = zsum (rnk s).
Proof.
  destruct (matrix_spec dominated same nocopy pop1 pop2 []) as (s & C & E & Ec & Sc & HC & H1 & H2 & (H3 & H4) & H5 & H6); [constructor|intros x []|auto|].
  assert (HC' : forall x, x < n -> (In x C <-> nocopy = true /\ repeats Eq vs x)).
  { intros x Hx. rewrite HC, copies by auto. cbn. tauto. }
  assert (F : forall a b, a < n -> b < n -> (final_cell dominated pop1 pop2 C a b = true <-> beats D Eq nocopy vs a b)).
  { intros a b Ha Hb. unfold final_cell, beats. rewrite cells by auto. rewrite andb_true_iff, orb_true_iff, negb_true_iff, mem_false, mem_In', le_dom, !HC' by auto.
    destruct nocopy; [|split; [intros [[|[? _]] _]; [auto|discriminate]|intros H; split; [auto|intros [? _]; discriminate]]].
    split; [intros [[A|[_ A]] B]; (split; [intros R; apply B; auto|auto])|intros [A [B|B]]; (split; [auto|intros [_ R]; auto])]. }
  exists s. split; auto. split; [|split; [|split]].
  - apply graph_of_cells; auto. intros a b Ha Hb. rewrite H2 by auto. auto.
  - split; auto. intros k z Hz. assert (Hk : k < n) by (apply nth_error_lt in Hz; lia). pose proof (nth_error_nth _ _ 0%Z Hz) as E0. rewrite H4 in E0 by auto.
    eexists. split; [|symmetry; apply E0]. apply how_many_count. auto.
  - split; auto. intros k z Hz. assert (Hk : k < n) by (apply nth_error_lt in Hz; lia). pose proof (nth_error_nth _ _ 0%Z Hz) as E0. rewrite H6 in E0 by auto.
    eexists. split; [|symmetry; apply E0]. apply how_many_count. auto.
  - rewrite (nth_seq_map (cnt s) n _ H3 H4), (nth_seq_map (rnk s) n _ H5 H6).
    erewrite map_ext; [|intros a; apply zc_sum]. rewrite zsum_swap. f_equal. apply map_ext. intros b. symmetry. apply zc_sum.
Qed.

Lemma ranking_ok m c l : sq l m -> length c = l -> forall i, i < l ->
  count_ranking m c i = Ok (- zsum (map (fun k => if cell m k i then nth k c 0%Z else 0%Z) (seq 0 l)))%Z.
Proof.
  intros [L HL] Lc i Hi. assert (HL' : forall r, In r m -> i < length r) by (intros r Hr; rewrite HL; auto). clear HL Hi.
  revert c l L Lc. induction m as [|r m IH]; intros c l L Lc; cbn in L; subst l; [reflexivity|].
  destruct c as [|x c]; [discriminate|]. cbn [count_ranking]. destruct (nth_error_in_some r i) as [b Eb]; [apply HL'; left; auto|]. rewrite Eb. cbn [of_opt rbind].
  rewrite (IH ltac:(intros; apply HL'; right; auto) c (length m)) by (auto; cbn in Lc; lia). cbn [rbind]. f_equal.
  assert (C0 : cell (r :: m) 0 i = b) by (unfold cell; cbn [nth]; apply nth_error_nth; auto).
  cbn [length seq map]. rewrite <- seq_shift, map_map, C0.
  set (t := map (fun k => if cell m k i then nth k c 0%Z else 0%Z) (seq 0 (length m))).
  change (map (fun x0 => if cell (r :: m) (S x0) i then nth (S x0) (x :: c) 0%Z else 0%Z) (seq 0 (length m))) with t.
  cbn [nth zsum fold_right]. unfold zsum. destruct b; lia.
Qed.
Lemma all_ok_map {A B} (f : A -> res B) (g : A -> B) : forall l, (forall x, In x l -> f x = Ok (g x)) -> all_ok (map f l) = Ok (map g l).
Proof.
  induction l as [|x l IH]; intros H; cbn; auto. rewrite H by (left; auto). cbn. rewrite IH by (intros; apply H; right; auto). reflexivity.
Qed.
Lemma split_fit {A} (l : list A) k (f g : list A) : f = firstn k l -> g = skipn k l -> l = f ++ g.
Proof. intros -> ->. symmetry. apply firstn_skipn. Qed.
Lemma zsum_filter (p : nat -> bool) (w : nat -> Z) l : zsum (map (fun k => if p k then w k else 0%Z) l) = zsum (map w (filter p l)).
Proof. induction l as [|x l IH]; cbn; auto. unfold zsum in IH. rewrite IH. destruct (p x); cbn; lia. Qed.

(** the three fitness assignments; the fitnesses of the archive come first *)
Lemma count_fitness_ok : exists fa fp, count_fitness dominated same nocopy pop1 pop2 [] = Ok (fa, fp) /\ length fa = length pop1 /\ length fp = length pop2 /\
  forall k z, nth_error (fa ++ fp) k = Some z -> exists c, how_many n (beats D Eq nocopy vs k) c /\ z = Z.of_nat c.
Proof.
  destruct matrix_ok as (s & E & _ & (L & H) & _). unfold count_fitness. rewrite E. cbn [rbind]. do 2 eexists. split; [reflexivity|].
  rewrite firstn_length, skipn_length, L. split; [lia|]. split; [lia|]. rewrite firstn_skipn. auto.
Qed.
Lemma rank_fitness_ok start : exists fa fp, rank_fitness dominated same nocopy start pop1 pop2 [] = Ok (fa, fp) /\ length fa = length pop1 /\ length fp = length pop2 /\
  forall l z, nth_error (fa ++ fp) l = Some z -> exists c, how_many n (fun k => beats D Eq nocopy vs k l) c /\ z = (- (Z.of_nat c + start))%Z.
Proof.
  destruct matrix_ok as (s & E & _ & _ & (L & H) & _). unfold rank_fitness. rewrite E. cbn [rbind]. do 2 eexists. split; [reflexivity|].
  rewrite firstn_length, skipn_length, !map_length, L. split; [lia|]. split; [lia|]. rewrite firstn_skipn. intros l z Hz. rewrite nth_error_map' in Hz.
  destruct (nth_error (rnk s) l) as [r|] eqn:Er; cbn in Hz; [|discriminate]. destruct (H l r Er) as (c & Hc & ->). exists c. split; auto. congruence.
Qed.
Lemma ranking_fitness_ok : exists fa fp w, ranking_fitness dominated same nocopy pop1 pop2 [] = Ok (fa, fp) /\ length fa = length pop1 /\ length fp = length pop2 /\
  (forall k, k < n -> exists c, how_many n (beats D Eq nocopy vs k) c /\ w k = Z.of_nat c) /\
  forall i z, nth_error (fa ++ fp) i = Some z -> exists t, sum_over n (fun k => beats D Eq nocopy vs k i) w t /\ z = (- t)%Z.
Proof.
  destruct matrix_ok as (s & E & G & (L & H) & _). unfold ranking_fitness. rewrite E. cbn [rbind].
  assert (Sq : sq n (mat s)).
  { destruct G as [G1 G2]. split; auto. intros l Hl. apply In_nth_error in Hl as [i Hi]. apply (G2 i l Hi). }
  assert (Lm : length (mat s) = n) by apply Sq. rewrite Lm.
  rewrite (all_ok_map _ (fun i => (- zsum (map (fun k => if cell (mat s) k i then nth k (cnt s) 0%Z else 0%Z) (seq 0 n)))%Z)).
  2:{ intros i Hi. apply in_seq in Hi. apply ranking_ok; auto. lia. }
  cbn [rbind]. do 2 eexists. exists (fun k => nth k (cnt s) 0%Z). split; [reflexivity|].
  rewrite firstn_length, skipn_length, !map_length, seq_length. split; [lia|]. split; [lia|]. split.
  - intros k Hk. destruct (nth_error_in_some (cnt s) k) as [z Hz]; [lia|]. destruct (H k z Hz) as (c & Hc & ->). exists c. split; auto. apply nth_error_nth. auto.
  - rewrite firstn_skipn. intros i z Hz. assert (Hi : i < n) by (apply nth_error_lt in Hz; rewrite map_length, seq_length in Hz; auto).
    rewrite nth_error_map', nth_error_seq' in Hz by auto. cbn in Hz. eexists. split; [|inversion Hz; reflexivity].
    rewrite zsum_filter. exists (filter (fun k => cell (mat s) k i) (seq 0 n)). split; [apply NoDup_filter, seq_NoDup|]. split; [|reflexivity].
    assert (Gc : forall k, k < n -> (cell (mat s) k i = true <-> beats D Eq nocopy vs k i)).
    { intros k Hk. destruct (sq_line n (mat s) k Sq Hk) as (l & El & Ll & Nl). destruct G as [_ G]. destruct (G k l El) as [_ G']. unfold cell. rewrite Nl. apply G'. apply nth_error_nth'. lia. }
    intros k. rewrite filter_In, in_seq. split; [intros [A B]; split; [lia|apply Gc; auto; lia]|intros [A B]; split; [lia|apply Gc; auto]].
Qed.
End Final.

(** ** a second call: the set of copies is never cleared *)
Lemma matrix_stale : exists pop pop' : list nat, exists s s' : dmat,
  let dom a b := b <? a in let eq := Nat.eqb in
  dominance_matrix dom eq true pop [] [] = Ok s /\ dominance_matrix dom eq true pop' [] (cps s) = Ok s' /\
  NoDup pop' /\ nth_error pop' 1 = Some 1 /\ nth_error pop' 0 = Some 2 /\ mget (mat s') 0 1 = Some true.
Proof.
  exists [5; 5], [2; 1]. do 2 eexists. cbn zeta. split; [vm_compute; reflexivity|]. split; [vm_compute; reflexivity|]. split; [|vm_compute; auto].
  repeat constructor; cbn; intuition discriminate.
Qed.
Lemma matrix_stale_ub : exists pop pop' : list nat, exists s : dmat,
  let dom a b := b <? a in let eq := Nat.eqb in
  dominance_matrix dom eq true pop [] [] = Ok s /\ dominance_matrix dom eq true pop' [] (cps s) = UB.
Proof.
  exists [5; 5], [2]. eexists. cbn zeta. split; vm_compute; reflexivity.
Qed.
