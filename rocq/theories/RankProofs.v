(** Proofs about dominance depth (C44). *)
From Coq Require Import List Arith Lia Bool ZArith QArith Permutation.
From Verif Require Import Outcome Lib RankModel RankSpec.
Import ListNotations.
Close Scope Q_scope.

(** ** fronts *)
Section Fronts.
Context {V : Type}.
Variable D : V -> V -> Prop.
Variable vs : list V.
Notation surv := (survives D vs).
Notation dom := (dominated_at D vs).
Lemma dom_lt i j : dom i j -> i < length vs /\ j < length vs.
Proof. intros (a & b & Ha & Hb & _). split; eapply nth_error_lt; eauto. Qed.
Lemma surv_lt k i : surv k i -> i < length vs.
Proof. induction k; cbn; [auto|intros [H _]; auto]. Qed.
Lemma surv_mono k k' i : k <= k' -> surv k' i -> surv k i.
Proof. induction 1; auto. cbn. intros [H' _]; auto. Qed.
Lemma surv_S k i : surv (S k) i <-> exists j, surv k j /\ dom i j.
Proof.
  split; [intros [_ H]; auto|]. intros (j & Hj & Hd). cbn. split; eauto.
  assert (G : forall m, m <= k -> surv m i); [|auto]. induction m as [|m IH]; intros Hm; cbn; [apply dom_lt in Hd; tauto|].
  split; [apply IH; lia|]. exists j. split; auto. apply surv_mono with k; auto. lia.
Qed.
Lemma front_unique i r r' : in_front_number D vs i r -> in_front_number D vs i r' -> r = r'.
Proof.
  assert (G : forall r r', in_front_number D vs i r -> in_front_number D vs i r' -> r' <= r).
  { clear r r'. intros r r' (H1 & H2 & H3) (H1' & H2' & H3'). destruct (le_lt_dec r' r); auto. exfalso. apply H3. apply surv_mono with (r' - 1); auto. lia. }
  intros H H'. pose proof (G _ _ H H'). pose proof (G _ _ H' H). lia.
Qed.
(** a numbering is the numbering of the fronts when a dominated member is after its
    dominators, and one of these is at least at the previous number *)
Lemma layering (f : nat -> nat) :
  (forall i, i < length vs -> 0 < f i) ->
  (forall i, i < length vs -> 1 < f i -> exists j, dom i j /\ f i <= S (f j)) ->
  (forall i j, dom i j -> f j < f i) ->
  forall i, i < length vs -> in_front_number D vs i (f i).
Proof.
  intros H1 H2 H3. assert (G : forall k i, surv k i <-> i < length vs /\ k < f i).
  { induction k as [|k IH]; intros i.
    - cbn. split; [intros H; split; auto|tauto].
    - rewrite surv_S. split.
      + intros (j & Hj & Hd). apply IH in Hj as [Hj Hk]. specialize (H3 _ _ Hd). split; [apply dom_lt in Hd; tauto|lia].
      + intros [Hi Hk]. destruct (H2 i Hi) as (j & Hd & Hf); [lia|]. exists j. split; auto. apply IH. split; [apply dom_lt in Hd; tauto|lia]. }
  intros i Hi. pose proof (H1 i Hi). split; auto. rewrite !G. split; [split; auto; lia|lia].
Qed.
(** a dominated member belongs to a later front *)
Lemma front_dom i j r s : dom i j -> in_front_number D vs i r -> in_front_number D vs j s -> s < r.
Proof.
  intros Hd (H1 & H2 & H3) (H1' & H2' & H3'). destruct (le_lt_dec r s); auto. exfalso. apply H3.
  replace r with (S (r - 1)) by lia. apply surv_S. exists j. split; auto. apply surv_mono with (s - 1); auto. lia.
Qed.
End Fronts.
Lemma survives_iff {V} (D D' : V -> V -> Prop) vs : (forall a b, In a vs -> In b vs -> (D a b <-> D' a b)) ->
  forall k i, survives D vs k i <-> survives D' vs k i.
Proof.
  intros H. assert (G : forall i j, dominated_at D vs i j <-> dominated_at D' vs i j).
  { intros i j. split; intros (a & b & Ha & Hb & Hd); exists a, b; (split; auto; split; auto; apply H; auto; eapply nth_error_In; eauto). }
  induction k as [|k IH]; intros i; cbn; [tauto|]. rewrite IH. split; intros [H1 (j & Hj & Hd)]; (split; auto; exists j; split; [apply IH; auto|apply G; auto]).
Qed.
Lemma front_number_iff {V} (D D' : V -> V -> Prop) vs : (forall a b, In a vs -> In b vs -> (D a b <-> D' a b)) ->
  forall i r, in_front_number D vs i r <-> in_front_number D' vs i r.
Proof. intros H i r. unfold in_front_number. rewrite !(survives_iff D D' vs H). tauto. Qed.

(** ** lists as functions of positions *)
Lemma set_map_seq {B} (F : nat -> B) n q v : q < n -> set (map F (seq 0 n)) q v = map (fun i => if i =? q then v else F i) (seq 0 n).
Proof.
  intros Hq. apply nth_error_ext. intros k. rewrite nth_error_set, map_length, seq_length.
  destruct (Nat.ltb_spec q n); [|lia]. rewrite andb_true_r, !nth_error_map. destruct (lt_dec k n).
  - rewrite nth_error_seq' by auto. cbn. destruct (k =? q); auto.
  - rewrite (proj2 (nth_error_None (seq 0 n) k)) by (rewrite seq_length; lia). cbn. destruct (Nat.eqb_spec k q); auto. lia.
Qed.
Lemma nth_map_seq {B} (F : nat -> B) n q : q < n -> nth_error (map F (seq 0 n)) q = Some (F q).
Proof. intros Hq. rewrite nth_error_map, nth_error_seq' by auto. auto. Qed.
Definition count (n : nat) (P : nat -> bool) : nat := length (filter P (seq 0 n)).
Lemma filter_ext_in' {B} (f g : B -> bool) l : (forall x, In x l -> f x = g x) -> filter f l = filter g l.
Proof. intros H. apply filter_ext_in. auto. Qed.
Lemma count_ext n P Q : (forall i, i < n -> P i = Q i) -> count n P = count n Q.
Proof. intros H. unfold count. f_equal. apply filter_ext_in. intros i Hi. apply in_seq in Hi. apply H. lia. Qed.
Lemma count_pos n P : 0 < count n P <-> exists i, i < n /\ P i = true.
Proof.
  unfold count. split.
  - intros H. destruct (filter P (seq 0 n)) as [|i l] eqn:E; [cbn in H; lia|]. exists i. assert (Hi : In i (filter P (seq 0 n))) by (rewrite E; left; auto).
    apply filter_In in Hi as [Hi HP]. apply in_seq in Hi. split; auto; lia.
  - intros (i & Hi & HP). assert (In i (filter P (seq 0 n))) as H by (apply filter_In; split; auto; apply in_seq; lia).
    destruct (filter P (seq 0 n)); [destruct H|cbn; lia].
Qed.
Lemma filter_length_imp {B} (f g : B -> bool) l : (forall x, In x l -> f x = true -> g x = true) -> length (filter f l) <= length (filter g l).
Proof.
  induction l as [|x l IH]; intros H; cbn; auto. assert (IH' := IH (fun y Hy => H y (or_intror Hy))).
  specialize (H x (or_introl eq_refl)). destruct (f x); [rewrite H by auto; cbn; lia|]. destruct (g x); cbn; lia.
Qed.
Lemma filter_length_lt {B} (f g : B -> bool) l z : (forall x, In x l -> f x = true -> g x = true) -> In z l -> f z = false -> g z = true ->
  length (filter f l) < length (filter g l).
Proof.
  induction l as [|x l IH]; intros H Hz Fz Gz; [destruct Hz|]. destruct Hz as [->|Hz]; cbn.
  - rewrite Fz, Gz. cbn. pose proof (filter_length_imp f g l (fun y Hy => H y (or_intror Hy))). lia.
  - assert (L := IH (fun y Hy => H y (or_intror Hy)) Hz Fz Gz). specialize (H x (or_introl eq_refl)).
    destruct (f x); [rewrite H by auto; cbn; lia|]. destruct (g x); cbn; lia.
Qed.
Lemma count_le n P Q : (forall i, i < n -> P i = true -> Q i = true) -> count n P <= count n Q.
Proof. intros H. apply filter_length_imp. intros x Hx. apply in_seq in Hx. apply H. lia. Qed.
Lemma count_lt n P Q z : (forall i, i < n -> P i = true -> Q i = true) -> z < n -> P z = false -> Q z = true -> count n P < count n Q.
Proof. intros H Hz. apply filter_length_lt; [|apply in_seq; lia]. intros x Hx. apply in_seq in Hx. apply H. lia. Qed.
Lemma count_bound n P : count n P <= n.
Proof.
  unfold count. rewrite <- (seq_length n 0) at 2. generalize (seq 0 n). induction l as [|x l IH]; cbn; auto. destruct (P x); cbn; lia.
Qed.
Lemma count_remove n P p : p < n -> P p = true -> count n P = S (count n (fun i => P i && negb (i =? p))).
Proof.
  intros Hp HP. unfold count. assert (G : forall l, NoDup l -> In p l -> length (filter P l) = S (length (filter (fun i => P i && negb (i =? p)) l))).
  { induction l as [|x l IH]; intros Hn Hi; [destruct Hi|]. inversion Hn as [|? ? N1 N2]; subst. cbn. destruct Hi as [->|Hi].
    - rewrite HP, Nat.eqb_refl. cbn. f_equal. f_equal. apply filter_ext_in. intros y Hy. destruct (Nat.eqb_spec y p); [subst; tauto|]. rewrite andb_true_r; auto.
    - destruct (Nat.eqb_spec x p); [subst; tauto|]. rewrite andb_true_r. destruct (P x); cbn; rewrite (IH N2 Hi); auto. }
  apply G; [apply seq_NoDup|apply in_seq; lia].
Qed.

Lemma mem_In' x l : existsb (Nat.eqb x) l = true <-> In x l.
Proof. rewrite existsb_exists. split; [intros (y & Hy & E); apply Nat.eqb_eq in E; subst; auto|intros H; exists x; rewrite Nat.eqb_refl; auto]. Qed.
Notation mem x l := (existsb (Nat.eqb x) l).
Lemma mem_false x l : mem x l = false <-> ~ In x l.
Proof. rewrite <- mem_In'. destruct (mem x l); intuition congruence. Qed.

(** ** peeling *)
Section Peel.
Variable V : Type.
Variable dominated : V -> V -> bool.
Variable vs : list V.
Notation size := (length vs).
Notation cmp := (cmp_at V dominated vs).
Notation D := (fun a b => dominated a b = true).
Lemma cmp_dom i j : cmp i j = true <-> dominated_at D vs i j.
Proof.
  unfold cmp_at, dominated_at. split.
  - destruct (nth_error vs i) as [a|]; [|discriminate]. destruct (nth_error vs j) as [b|]; [|discriminate]. eauto 6.
  - intros (a & b & -> & -> & H). auto.
Qed.
Lemma cmp_lt i j : cmp i j = true -> i < size /\ j < size.
Proof. rewrite cmp_dom. apply dom_lt. Qed.

Lemma visit_all_spec counter : forall qs N F next, NoDup qs -> (forall q, In q qs -> q < size /\ 0 < N q) ->
  visit_all counter (map N (seq 0 size), map F (seq 0 size), next) qs =
  let new := filter (fun q => N q =? 1) qs in
  Ok (map (fun i => if mem i qs then N i - 1 else N i) (seq 0 size),
      map (fun i => if mem i new then Some (Z.of_nat (counter + 1)) else F i) (seq 0 size), next ++ new).
Proof.
  induction qs as [|q qs IH]; intros N F next Hn Hq; cbn [visit_all].
  - cbn. rewrite app_nil_r. reflexivity.
  - inversion Hn as [|? ? Hn1 Hn2]; subst. destruct (Hq q (or_introl eq_refl)) as [Hq1 Hq2].
    unfold visit at 1. rewrite nth_map_seq by auto. cbn [of_opt rbind]. destruct (N q) as [|c] eqn:Eq; [lia|].
    assert (T : forall F' next',
      visit_all counter (set (map N (seq 0 size)) q c, map F' (seq 0 size), next') qs =
      Ok (map (fun i => if mem i (q :: qs) then N i - 1 else N i) (seq 0 size),
          map (fun i => if mem i (filter (fun q => N q =? 1) qs) then Some (Z.of_nat (counter + 1)) else F' i) (seq 0 size),
          next' ++ filter (fun q => N q =? 1) qs)).
    { intros F' next'. rewrite set_map_seq by auto. rewrite IH; auto.
      - assert (E : filter (fun q0 => (if q0 =? q then c else N q0) =? 1) qs = filter (fun q0 => N q0 =? 1) qs).
        { apply filter_ext_in. intros x Hx. destruct (Nat.eqb_spec x q); [subst; tauto|auto]. }
        cbv zeta. rewrite E. f_equal. f_equal. f_equal. apply map_ext_in. intros i _. cbn [existsb].
        destruct (Nat.eqb_spec i q) as [->|]; cbn [orb]; auto. rewrite (proj2 (mem_false q qs)) by auto. lia.
      - intros x Hx. destruct (Hq x (or_intror Hx)). split; auto. destruct (Nat.eqb_spec x q); [subst; tauto|auto]. }
    cbv zeta. cbn [filter]. rewrite Eq. cbn [Nat.eqb]. destruct (Nat.eqb_spec c 0) as [->|Hc]; cbn [rbind].
    + unfold set_fitness. rewrite (set_map_seq F) by auto. rewrite T. f_equal. f_equal; [|rewrite <- app_assoc; auto]. f_equal.
      apply map_ext_in. intros i _. cbn [existsb]. destruct (Nat.eqb_spec i q); cbn [orb]; auto. destruct (mem i _); auto.
    + rewrite T. auto.
Qed.

Definition cnt (alive : nat -> bool) (q : nat) : nat := count size (fun p => cmp q p && alive p).
Lemma cnt_remove alive p q : alive p = true -> p < size ->
  cnt (fun i => alive i && negb (i =? p)) q = if cmp q p then cnt alive q - 1 else cnt alive q.
Proof.
  intros Ha Hp. unfold cnt. destruct (cmp q p) eqn:E.
  - rewrite (count_remove size (fun i => cmp q i && alive i) p) by (auto; rewrite E, Ha; auto).
    rewrite Nat.sub_succ, Nat.sub_0_r. apply count_ext. intros i _. rewrite andb_assoc. auto.
  - apply count_ext. intros i _. destruct (Nat.eqb_spec i p) as [->|]; [rewrite E; auto|rewrite andb_true_r; auto].
Qed.
Lemma dominated_by_In p q : In q (dominated_by V dominated vs p) <-> cmp q p = true.
Proof. unfold dominated_by. rewrite filter_In, in_seq. split; [tauto|]. intros H. split; auto. apply cmp_lt in H. lia. Qed.
Lemma dominated_by_NoDup p : NoDup (dominated_by V dominated vs p).
Proof. apply NoDup_filter, seq_NoDup. Qed.

Definition minus (alive : nat -> bool) (ps : list nat) (i : nat) : bool := alive i && negb (mem i ps).
Lemma visit_front_spec counter : forall ps alive F next, NoDup ps -> (forall p, In p ps -> p < size /\ alive p = true) ->
  exists new, visit_front V dominated vs counter (map (cnt alive) (seq 0 size), map F (seq 0 size), next) ps =
    Ok (map (cnt (minus alive ps)) (seq 0 size), map (fun i => if mem i new then Some (Z.of_nat (counter + 1)) else F i) (seq 0 size), next ++ new) /\
  NoDup new /\ (forall q, In q new <-> q < size /\ 0 < cnt alive q /\ cnt (minus alive ps) q = 0).
Proof.
  induction ps as [|p ps IH]; intros alive F next Hn Hp; cbn [visit_front].
  - exists []. rewrite app_nil_r. split; [|split; [constructor|]].
    + f_equal. f_equal. f_equal. apply map_ext_in. intros q _. unfold cnt, minus. apply count_ext. intros i _. cbn. rewrite andb_true_r. auto.
    + intros q. assert (cnt (minus alive []) q = cnt alive q) as ->; [|cbn; lia]. unfold cnt, minus. apply count_ext. intros i _. cbn. rewrite andb_true_r. auto.
  - inversion Hn as [|? ? Hn1 Hn2]; subst. destruct (Hp p (or_introl eq_refl)) as [Hp1 Hp2].
    assert (Pos : forall q, cmp q p = true -> 0 < cnt alive q).
    { intros q Hq. apply count_pos. exists p. split; auto. rewrite Hq, Hp2. auto. }
    rewrite visit_all_spec; [|apply dominated_by_NoDup|intros q Hq; apply dominated_by_In in Hq; split; [apply cmp_lt in Hq; tauto|auto]].
    cbv zeta. cbn [rbind]. set (al := fun i => alive i && negb (i =? p)). set (n1 := filter (fun q => cnt alive q =? 1) (dominated_by V dominated vs p)).
    assert (E : map (fun i => if mem i (dominated_by V dominated vs p) then cnt alive i - 1 else cnt alive i) (seq 0 size) = map (cnt al) (seq 0 size)).
    { apply map_ext_in. intros i _. unfold al. rewrite cnt_remove by auto. destruct (mem i _) eqn:M.
      - apply mem_In', dominated_by_In in M. rewrite M. auto.
      - apply mem_false in M. rewrite dominated_by_In in M. destruct (cmp i p); tauto. }
    rewrite E. destruct (IH al (fun i => if mem i n1 then Some (Z.of_nat (counter + 1)) else F i) (next ++ n1)) as (n2 & E2 & ND & H2); auto.
    { intros x Hx. destruct (Hp x (or_intror Hx)) as [Hx1 Hx2]. split; auto. unfold al. rewrite Hx2. destruct (Nat.eqb_spec x p); [subst; tauto|auto]. }
    assert (M : forall q, cnt (minus al ps) q = cnt (minus alive (p :: ps)) q).
    { intros q. unfold cnt. apply count_ext. intros i _. unfold minus, al. cbn [existsb]. rewrite negb_orb. f_equal. rewrite andb_assoc. auto. }
    assert (I1 : forall q, In q n1 <-> cmp q p = true /\ cnt alive q = 1).
    { intros q. unfold n1. rewrite filter_In, dominated_by_In, Nat.eqb_eq. tauto. }
    assert (Le : forall q, cnt (minus al ps) q <= cnt al q).
    { intros q. unfold cnt. apply count_le. intros i _. unfold minus. rewrite !andb_true_iff. tauto. }
    exists (n1 ++ n2). rewrite E2. split; [|split].
    + f_equal. f_equal; [|rewrite app_assoc; auto]. f_equal; [apply map_ext_in; intros; apply M|].
      apply map_ext_in. intros i _. rewrite existsb_app. destruct (mem i n2), (mem i n1); auto.
    + assert (Disj : forall q, In q n1 -> ~ In q n2).
      { intros q Q1 Q2. apply I1 in Q1 as [Q1 Q3]. apply H2 in Q2 as (_ & Q2 & _). unfold al in Q2. rewrite cnt_remove, Q1 in Q2 by auto. lia. }
      clear - ND Disj. assert (N1 : NoDup n1) by apply NoDup_filter, dominated_by_NoDup.
      induction n1 as [|x l IH]; auto. inversion N1; subst. cbn. constructor.
      * rewrite in_app_iff. intros [C|C]; [auto|]. apply (Disj x); [left; auto|auto].
      * apply IH; auto. intros q Hq. apply Disj. right; auto.
    + intros q. rewrite in_app_iff, I1, H2, <- M. specialize (Le q). unfold al in Le at 2. unfold al at 1. rewrite cnt_remove in * by auto.
      destruct (cmp q p) eqn:C.
      * specialize (Pos q C). apply cmp_lt in C. destruct (Nat.eq_dec (cnt alive q) 1); split; intros HH; try lia.
      * intuition (try discriminate).
Qed.

(** survivors *)
Fixpoint survb (k : nat) (i : nat) : bool :=
  match k with
  | 0 => i <? size
  | S k' => (i <? size) && (0 <? cnt (survb k') i)
  end.
Lemma survb_spec k i : survb k i = true <-> survives D vs k i.
Proof.
  revert i. induction k as [|k IH]; intros i.
  - cbn. apply Nat.ltb_lt.
  - rewrite surv_S. cbn [survb]. rewrite andb_true_iff, !Nat.ltb_lt. unfold cnt. rewrite count_pos. split.
    + intros [Hi (j & Hj & H)]. apply andb_true_iff in H as [H1 H2]. exists j. rewrite <- IH, <- cmp_dom. auto.
    + intros (j & Hj & Hd). pose proof (dom_lt _ _ _ _ Hd). split; [tauto|]. exists j. split; [tauto|]. rewrite andb_true_iff, cmp_dom, IH. auto.
Qed.
Lemma survb_lt k i : survb k i = true -> i < size.
Proof. rewrite survb_spec. apply surv_lt. Qed.
Lemma survb_pred k i : survb (S k) i = true -> survb k i = true.
Proof. rewrite !survb_spec. apply surv_mono. lia. Qed.
Lemma front_b i r : 0 < r -> (in_front_number D vs i r <-> survb (r - 1) i = true /\ survb r i = false).
Proof. intros Hr. unfold in_front_number. rewrite <- survb_spec, <- not_true_iff_false, survb_spec. rewrite survb_spec. tauto. Qed.

(** the fitness after [c] fronts *)
Definition fit_upto (f0 : nat -> option Z) (c : nat) (F : nat -> option Z) : Prop :=
  forall i, i < size -> (survb c i = true -> F i = f0 i) /\
    (survb c i = false -> exists r, F i = Some (Z.of_nat r) /\ in_front_number D vs i r).
Definition finished (f0 F : nat -> option Z) : Prop :=
  forall i, i < size -> (exists r, F i = Some (Z.of_nat r) /\ in_front_number D vs i r) \/ (F i = f0 i /\ forall k, survives D vs k i).
Lemma peel_spec f0 : forall fuel c front F, c + fuel = size + 3 -> 1 <= c -> NoDup front ->
  (forall i, In i front <-> survb (c - 1) i = true /\ survb c i = false) ->
  count size (survb (c - 1)) + (c - 1) <= size -> fit_upto f0 c F ->
  exists F', peel V dominated vs fuel c front (map (cnt (survb (c - 1))) (seq 0 size)) (map F (seq 0 size)) = Ok (map F' (seq 0 size)) /\ finished f0 F'.
Proof.
  induction fuel as [|fuel IH]; intros c front F Hfuel Hc Hnd Hfr Hcount Hfit.
  - exfalso. lia.
  - cbn [peel]. destruct (Nat.leb_spec (size + 2) c); [exfalso; lia|]. destruct front as [|p0 front0] eqn:Ef; [|rewrite <- Ef in *].
    + exists F. split; auto. intros i Hi. destruct (Hfit i Hi) as [G1 G2]. destruct (survb c i) eqn:Sv; [|left; auto].
      right. split; auto. assert (Eq : forall j, survb c j = survb (c - 1) j).
      { intros j. destruct (survb (c - 1) j) eqn:S1, (survb c j) eqn:S2; auto; exfalso.
        - apply (proj2 (Hfr j)); auto.
        - replace c with (S (c - 1)) in S2 by lia. apply survb_pred in S2. congruence. }
      assert (G : forall k j, survb (c - 1 + k) j = survb (c - 1) j).
      { induction k as [|k IHk]; intros j; [rewrite Nat.add_0_r; auto|]. rewrite Nat.add_succ_r. cbn [survb].
        transitivity ((j <? size) && (0 <? cnt (survb (c - 1)) j)); [f_equal; f_equal; apply count_ext; intros x _; rewrite IHk; auto|].
        rewrite <- (Eq j). replace c with (S (c - 1)) at 2 by lia. cbn [survb]. auto. }
      intros k. apply survb_spec. destruct (le_lt_dec k c).
      * assert (Hs := Sv). rewrite survb_spec in *. apply surv_mono with c; auto.
      * replace k with (c - 1 + (k - (c - 1))) by lia. rewrite G, <- Eq. auto.
    + assert (Hp0 : survb (c - 1) p0 = true) by (apply Hfr; rewrite Ef; left; auto).
      assert (Cpos : 0 < count size (survb (c - 1))) by (apply count_pos; exists p0; split; auto; eapply survb_lt; eauto).
      destruct (Nat.leb_spec (size + 2) (c + 1)); [lia|].
      assert (Hfin : forall p, In p front -> p < size /\ survb (c - 1) p = true).
      { intros p Hp. apply Hfr in Hp as [Hp _]. split; auto. eapply survb_lt; eauto. }
      destruct (visit_front_spec c front (survb (c - 1)) F [] Hnd Hfin) as (new & E & ND & Hnew). cbn [app] in E.
      rewrite E. cbn [rbind]. clear E.
      assert (Al : forall i, minus (survb (c - 1)) front i = survb c i).
      { intros i. unfold minus. destruct (survb c i) eqn:Sv.
        - replace c with (S (c - 1)) in Sv by lia. rewrite (survb_pred _ _ Sv). cbn. apply negb_true_iff, mem_false. rewrite Hfr.
          replace c with (S (c - 1)) at 2 by lia. intros [_ C]. congruence.
        - destruct (survb (c - 1) i) eqn:S1; auto. cbn. apply negb_false_iff, mem_In'. apply Hfr. auto. }
      assert (Ac : forall q, cnt (minus (survb (c - 1)) front) q = cnt (survb c) q).
      { intros q. apply count_ext. intros i _. rewrite Al. auto. }
      assert (Ec : S c - 1 = c) by lia.
      replace (map (cnt (minus (survb (c - 1)) front)) (seq 0 size)) with (map (cnt (survb (S c - 1))) (seq 0 size))
        by (rewrite Ec; apply map_ext_in; intros q _; rewrite Ac; auto).
      assert (Hnew' : forall q, In q new <-> survb c q = true /\ survb (S c) q = false).
      { intros q. rewrite Hnew, Ac. cbn [survb]. replace (survb c q) with (survb (S (c - 1)) q) by (f_equal; lia). cbn [survb].
        rewrite andb_true_iff, andb_false_iff, !Nat.ltb_lt, !Nat.ltb_ge. lia. }
      apply IH; auto; try lia.
      * rewrite Ec. auto.
      * rewrite Ec. assert (count size (survb c) < count size (survb (c - 1))); [|lia].
        apply (count_lt size _ _ p0); auto.
        -- intros i _ Hi. replace c with (S (c - 1)) in Hi by lia. apply survb_pred in Hi. auto.
        -- eapply survb_lt; eauto.
        -- apply Hfr. rewrite Ef. left; auto.
      * intros i Hi. destruct (Hfit i Hi) as [G1 G2]. split.
        -- intros Sv. pose proof (survb_pred _ _ Sv) as S'. rewrite (proj2 (mem_false i new)); [auto|]. rewrite Hnew'. intros [_ C]. congruence.
        -- intros Sv. destruct (mem i new) eqn:M.
           ++ apply mem_In', Hnew' in M. exists (c + 1). split; auto. apply front_b; [lia|]. replace (c + 1 - 1) with c by lia. rewrite Nat.add_1_r. auto.
           ++ apply G2. destruct (survb c i) eqn:S'; auto. exfalso. apply mem_false in M. apply M, Hnew'. auto.
Qed.

Hypothesis asym : forall i j, cmp i j = true -> cmp j i = false.
Lemma dominators_cnt p : dominators V dominated vs p = cnt (survb 0) p.
Proof.
  unfold dominators, cnt. apply count_ext. intros i Hi. cbn [survb]. rewrite (proj2 (Nat.ltb_lt i size)) by auto. rewrite andb_true_r.
  destruct (cmp p i) eqn:E; [rewrite (asym _ _ E)|]; destruct (cmp i p); auto.
Qed.
Lemma fold_set_map (v : Z) : forall ps F, (forall p, In p ps -> p < size) ->
  fold_left (fun f p => set_fitness f p v) ps (map F (seq 0 size)) = map (fun i => if mem i ps then Some v else F i) (seq 0 size).
Proof.
  induction ps as [|p ps IH]; intros F H; cbn [fold_left]; auto.
  unfold set_fitness at 2. rewrite set_map_seq by (apply H; left; auto). rewrite IH by (intros; apply H; right; auto).
  apply map_ext_in. intros i _. cbn [existsb]. destruct (i =? p), (mem i ps); auto.
Qed.
Lemma mObjectives_spec f0 : exists F, mObjectives V dominated vs (map f0 (seq 0 size)) = Ok (map F (seq 0 size)) /\ finished f0 F.
Proof.
  unfold mObjectives, first_fitness. assert (Hff : forall i, In i (first_front V dominated vs) <-> survb 0 i = true /\ survb 1 i = false).
  { intros i. unfold first_front. rewrite filter_In, in_seq, Nat.eqb_eq, dominators_cnt. cbn [survb].
    rewrite Nat.ltb_lt, andb_false_iff, !Nat.ltb_ge. lia. }
  rewrite fold_set_map by (intros p Hp; apply Hff in Hp as [Hp _]; apply Nat.ltb_lt in Hp; auto).
  replace (map (dominators V dominated vs) (seq 0 size)) with (map (cnt (survb (1 - 1))) (seq 0 size)).
  2:{ apply map_ext_in. intros i _. rewrite dominators_cnt. auto. }
  apply peel_spec; auto; try lia.
  - apply NoDup_filter, seq_NoDup.
  - pose proof (count_bound size (survb (1 - 1))). lia.
  - intros i Hi. split.
    + intros Sv. rewrite (proj2 (mem_false i _)); auto. rewrite Hff. intros [_ C]. congruence.
    + intros Sv. rewrite (proj2 (mem_In' i _)).
      * exists 1. split; auto. apply front_b; auto. split; auto. apply Nat.ltb_lt. auto.
      * apply Hff. split; auto. apply Nat.ltb_lt. auto.
Qed.
(** with a transitive comparator nobody survives for ever *)
Hypothesis trans : forall i j k, cmp i j = true -> cmp j k = true -> cmp i k = true.
Lemma surv_bound k i : survives D vs k i -> k <= count size (fun j => cmp i j).
Proof.
  revert i. induction k as [|k IH]; intros i; [lia|]. rewrite surv_S. intros (j & Hj & Hd). apply IH in Hj. apply cmp_dom in Hd.
  assert (count size (fun x => cmp j x) < count size (fun x => cmp i x)); [|lia].
  apply (count_lt size _ _ j); auto.
  - intros x _ Hx. eapply trans; eauto.
  - apply cmp_lt in Hd. tauto.
  - destruct (cmp j j) eqn:E; auto. pose proof (asym _ _ E). congruence.
Qed.
Lemma mObjectives_all f0 : exists R : nat -> nat, mObjectives V dominated vs (map f0 (seq 0 size)) = Ok (map (fun i => Some (Z.of_nat (R i))) (seq 0 size)) /\
  forall i, i < size -> in_front_number D vs i (R i).
Proof.
  destruct (mObjectives_spec f0) as (F & E & H).
  exists (fun i => match F i with Some z => Z.to_nat z | None => 0 end).
  assert (G : forall i, i < size -> exists r, F i = Some (Z.of_nat r) /\ in_front_number D vs i r).
  { intros i Hi. destruct (H i Hi) as [G|[_ G]]; auto. exfalso. specialize (G (S size)). apply surv_bound in G. pose proof (count_bound size (fun j => cmp i j)). lia. }
  rewrite E. split.
  - f_equal. apply map_ext_in. intros i Hi. apply in_seq in Hi. destruct (G i ltac:(lia)) as (r & -> & _). rewrite Nat2Z.id. auto.
  - intros i Hi. destruct (G i Hi) as (r & -> & Hr). rewrite Nat2Z.id. auto.
Qed.
End Peel.
