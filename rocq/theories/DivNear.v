(** Proofs about the nearest-neighbour and sharing diversities (C109, C110). *)
From Coq Require Import List Bool QArith Arith Lia Lqa Permutation Sorted.
From Verif Require Import Lib Outcome OrderSpec OrderLemmas BoundsModel BoundsProofs EvalModel EvalSpec EvalNk DivSpec DivModel DivProofs.
Import ListNotations.
Close Scope Q_scope.
Open Scope nat_scope.

Lemma filter_snoc (p p' : nat -> bool) o n : o < n -> (forall x, x < n -> x <> o -> p' x = p x) -> p o = false -> p' o = true -> (forall x, o < x < n -> p x = false) ->
  filter p' (seq 0 n) = filter p (seq 0 n) ++ [o].
Proof.
  intros Ho He Hp Hp' Hz. assert (Es : seq 0 n = seq 0 o ++ o :: seq (S o) (n - S o)). { replace n with (o + S (n - S o)) at 1 by lia. rewrite seq_app. auto. }
  rewrite Es, !filter_app. cbn [filter]. rewrite Hp, Hp'.
  assert (E1 : filter p' (seq 0 o) = filter p (seq 0 o)) by (apply filter_ext_in; intros x Hx; apply in_seq in Hx; apply He; lia).
  assert (E2 : filter p (seq (S o) (n - S o)) = []) by (apply filter_none; intros x Hx; apply in_seq in Hx; apply Hz; lia).
  assert (E3 : filter p' (seq (S o) (n - S o)) = []) by (apply filter_none; intros x Hx; apply in_seq in Hx; rewrite He by lia; apply Hz; lia).
  rewrite E1, E2, E3, app_nil_r. auto.
Qed.
Lemma map_seq_set {T} (f g : nat -> T) n k v : k < n -> g k = v -> (forall x, x < n -> x <> k -> g x = f x) -> set (map f (seq 0 n)) k v = map g (seq 0 n).
Proof.
  intros Hk Hv He. apply nth_error_ext. intros x. rewrite !nth_error_set, map_length, seq_length, !nth_error_map'.
  destruct (Nat.lt_ge_cases x n) as [Hx|Hx].
  - rewrite !nth_error_seq' by auto. cbn [option_map Nat.add]. destruct (Nat.eqb_spec x k) as [->|]; [destruct (Nat.ltb_spec k n); [cbn; subst; auto|lia]|cbn; rewrite He; auto].
  - assert (E : nth_error (seq 0 n) x = None) by (apply nth_error_None; rewrite seq_length; auto). rewrite E. cbn [option_map]. destruct (Nat.eqb_spec x k) as [->|]; [lia|auto].
Qed.

Section Near.
Variable X : Type.
Variable sort : forall T : Type, (T -> T -> bool) -> list T -> list T.
Hypothesis sort_ok : std_sort_ok sort.
Variable dist : X -> X -> Q.
Variable all : list X.
Notation n := (length all).
Definition dd (a b : nat) : Q := match nth_error all (Nat.min a b), nth_error all (Nat.max a b) with Some x, Some y => dist x y | _, _ => 0%Q end.
Definition done (k l r o : nat) : bool := negb (r =? o) && ((Nat.min r o <? k) || ((Nat.min r o =? k) && (Nat.max r o <? l))).
Definition rows_at (k l : nat) : list (list Q) := map (fun r => map (dd r) (filter (done k l r) (seq 0 n))) (seq 0 n).
Ltac bools := repeat match goal with |- context [?a =? ?b] => destruct (Nat.eqb_spec a b) | |- context [?a <? ?b] => destruct (Nat.ltb_spec a b) end; cbn; try reflexivity; try lia.
Lemma push_ok f k d : k < n -> push (map f (seq 0 n)) k d = Ok (set (map f (seq 0 n)) k (f k ++ [d])).
Proof. intros Hk. unfold push. rewrite nth_error_map', nth_error_seq' by auto. cbn. rewrite upd_set by (rewrite map_length, seq_length; auto). auto. Qed.
Lemma inner_rows k : k < n -> forall c l, k < l -> l + c = n ->
  for_in (seq l c) (fun l rows => let! x := of_opt (nth_error all k) in let! y := of_opt (nth_error all l) in let! rows := push rows k (dist x y) in push rows l (dist x y)) (rows_at k l) = Ok (rows_at k n).
Proof.
  intros Hk. induction c as [|c IH]; intros l Hl Hc; cbn [seq for_in]; [replace l with n by lia; auto|].
  match goal with |- context [for_in (seq (S l) c) ?b] => set (body := b) in * end.
  destruct (nth_error all k) as [x|] eqn:Ex; [|apply nth_error_None in Ex; lia]. destruct (nth_error all l) as [y|] eqn:Ey; [|apply nth_error_None in Ey; lia]. cbn [of_opt rbind].
  unfold rows_at at 1. rewrite push_ok by auto. cbn [rbind].
  assert (D1 : dd k l = dist x y) by (unfold dd; rewrite Nat.min_l, Nat.max_r by lia; rewrite Ex, Ey; auto). assert (D2 : dd l k = dist x y) by (unfold dd; rewrite Nat.min_r, Nat.max_l by lia; rewrite Ex, Ey; auto).
  assert (F1 : filter (done k (S l) k) (seq 0 n) = filter (done k l k) (seq 0 n) ++ [l]).
  { apply filter_snoc; try lia; [intros o Ho Hne|..|intros o Ho]; unfold done; bools. }
  assert (F2 : filter (done k (S l) l) (seq 0 n) = filter (done k l l) (seq 0 n) ++ [k]).
  { apply filter_snoc; try lia; [intros o Ho Hne|..|intros o Ho]; unfold done; bools. }
  assert (F3 : forall r, r <> k -> r <> l -> filter (done k (S l) r) (seq 0 n) = filter (done k l r) (seq 0 n)).
  { intros r R1 R2. apply filter_ext_in. intros o Ho. apply in_seq in Ho. unfold done; bools. }
  rewrite (map_seq_set _ (fun r => if r =? k then map (dd k) (filter (done k l k) (seq 0 n)) ++ [dist x y] else map (dd r) (filter (done k l r) (seq 0 n))) n k); [|lia|rewrite Nat.eqb_refl; auto|intros r _ Hr; destruct (Nat.eqb_spec r k); [congruence|auto]].
  rewrite push_ok by lia. cbn [rbind]. destruct (Nat.eqb_spec l k) as [|_]; [lia|].
  rewrite (map_seq_set _ (fun r => map (dd r) (filter (done k (S l) r) (seq 0 n))) n l); try lia.
  - fold (rows_at k (S l)). apply IH; lia.
  - rewrite F2, map_app. cbn [map]. rewrite D2. auto.
  - intros r Hr Hrl. destruct (Nat.eqb_spec r k) as [->|Hrk]; [rewrite F1, map_app; cbn [map]; rewrite D1; auto|rewrite F3; auto].
Qed.
Lemma rows_next k : k + 1 < n -> rows_at k n = rows_at (k + 1) (k + 2).
Proof.
  intros Hk. unfold rows_at. apply map_ext_in. intros r Hr. apply in_seq in Hr. f_equal. apply filter_ext_in. intros o Ho. apply in_seq in Ho. unfold done. bools.
Qed.
Lemma rows_first : rows_at 0 1 = repeat [] n.
Proof.
  unfold rows_at. rewrite (map_ext_in _ (fun _ => [])); [induction n as [|m IH]; cbn; auto; f_equal; rewrite <- seq_shift, map_map; auto|].
  intros r Hr. rewrite filter_none; auto. intros o Ho. unfold done. bools.
Qed.
Lemma rows_last : 0 < n -> rows_at (n - 1) n = map (fun r => map (dd r) (filter (fun o => negb (r =? o)) (seq 0 n))) (seq 0 n).
Proof.
  intros Hn. unfold rows_at. apply map_ext_in. intros r Hr. apply in_seq in Hr. f_equal. apply filter_ext_in. intros o Ho. apply in_seq in Ho. unfold done. bools.
Qed.
Lemma distances_ok : distances_to_others X dist all = Ok (map (fun r => map (dd r) (filter (fun o => negb (r =? o)) (seq 0 n))) (seq 0 n)).
Proof.
  unfold distances_to_others. destruct (Nat.eq_dec n 0) as [Z|Z]; [rewrite Z; auto|]. rewrite <- rows_first.
  assert (G : forall c k, k + c = n - 1 -> for_in (seq k c) (fun k rows => for_in (seq (k + 1) (n - (k + 1))) (fun l rows => let! x := of_opt (nth_error all k) in let! y := of_opt (nth_error all l) in let! rows := push rows k (dist x y) in push rows l (dist x y)) rows) (rows_at k (k + 1)) = Ok (rows_at (n - 1) n)).
  { induction c as [|c IH]; intros k Hk; cbn [seq for_in].
    - replace k with (n - 1) by lia. replace (n - 1 + 1) with n by lia. auto.
    - rewrite inner_rows by lia. cbn [rbind]. rewrite rows_next by lia. specialize (IH (S k) ltac:(lia)). replace (k + 1) with (S k) by lia. replace (k + 2) with (S k + 1) by lia. auto. }
  rewrite <- rows_last by lia. apply (G (n - 1) 0). lia.
Qed.
Hypothesis dist_sym : forall x y, dist x y = dist y x.
Lemma row_split before x after : all = before ++ x :: after -> map (dd (length before)) (filter (fun o => negb (length before =? o)) (seq 0 n)) = map (dist x) (before ++ after).
Proof.
  intros E. assert (Ls : seq 0 n = seq 0 (length before) ++ length before :: seq (S (length before)) (length after)).
  { rewrite E, app_length. cbn [length]. replace (length before + S (length after)) with (length before + (1 + length after)) by lia. rewrite seq_app. auto. }
  rewrite Ls, filter_app. cbn [filter]. rewrite Nat.eqb_refl. cbn [negb].
  rewrite (filter_id _ (seq 0 (length before))) by (intros o Ho; apply in_seq in Ho; destruct (Nat.eqb_spec (length before) o); auto; lia).
  rewrite (filter_id _ (seq (S (length before)) _)) by (intros o Ho; apply in_seq in Ho; destruct (Nat.eqb_spec (length before) o); auto; lia).
  rewrite !map_app.
  assert (D : forall o y, nth_error all o = Some y -> o <> length before -> dd (length before) o = dist x y).
  { intros o y Ho Hne. assert (Hx : nth_error all (length before) = Some x) by (rewrite E, nth_error_app2, Nat.sub_diag by lia; auto). unfold dd.
    destruct (Nat.lt_ge_cases o (length before)); [rewrite Nat.min_r, Nat.max_l by lia; rewrite Ho, Hx; auto|rewrite Nat.min_l, Nat.max_r by lia; rewrite Ho, Hx; auto]. }
  assert (Q : forall l pre post, all = pre ++ l ++ post -> (length pre + length l <= length before \/ length before < length pre) -> map (dd (length before)) (seq (length pre) (length l)) = map (dist x) l).
  { induction l as [|y l IH]; intros pre post Hl Hw; cbn [length seq map]; auto. f_equal.
    - apply D; [rewrite Hl, nth_error_app2, Nat.sub_diag by lia; auto|cbn in Hw; lia].
    - specialize (IH (pre ++ [y]) post). rewrite app_length in IH. cbn [length] in *. replace (length pre + 1) with (S (length pre)) in IH by lia. apply IH; [rewrite Hl, <- app_assoc; auto|lia]. }
  f_equal.
  - apply (Q before [] (x :: after)); auto.
  - specialize (Q after (before ++ [x]) []). rewrite app_length in Q. cbn [length] in Q. replace (length before + 1) with (S (length before)) in Q by lia. apply Q; [rewrite app_nil_r, <- app_assoc; auto|lia].
Qed.
Lemma SS_qltb (l : list Q) : StronglySorted (fun a b => qltb b a = false) l -> StronglySorted Qle l.
Proof. induction 1 as [|a s Hs IH Hf]; constructor; auto. eapply Forall_impl; [|exact Hf]. intros b Hb. cbv beta in Hb. apply qltb_ge in Hb. auto. Qed.
Lemma get_element_ok index row : row <> [] -> exists d, get_element index (sort _ qltb row) = Ok d /\ kth_smallest (Nat.max 1 (Nat.min index (length row))) row d.
Proof.
  intros Hne. destruct (sort_ok _ qltb row (qltb_swo (fun q => q))) as [P S]. unfold get_element. rewrite <- (Permutation_length P).
  assert (L : length row > 0) by (destruct row; [congruence|cbn; lia]).
  destruct (nth_error (sort Q qltb row) (Nat.min (length row) index - 1)) as [d|] eqn:E; [|apply nth_error_None in E; rewrite <- (Permutation_length P) in E; lia].
  exists d. split; auto. exists (sort Q qltb row). split; auto. split; [apply SS_qltb; auto|].
  replace (Nat.max 1 (Nat.min index (length row)) - 1) with (Nat.min (length row) index - 1) by lia. auto.
Qed.
Lemma for_in_rows {A} (g : A -> res Q) : forall rows acc, (forall r, In r rows -> exists d, g r = Ok d) ->
  exists ds, for_in rows (fun row acc => let! d := g row in Ok (acc ++ [(- (1) / (2 + d))%Q])) acc = Ok (acc ++ map (fun d => - (1) / (2 + d))%Q ds) /\ Forall2 (fun r d => g r = Ok d) rows ds.
Proof.
  induction rows as [|r rows IH]; intros acc H; cbn [for_in]; [exists []; rewrite app_nil_r; auto|]. destruct (H r (or_introl eq_refl)) as (d & E). rewrite E. cbn [rbind].
  destruct (IH (acc ++ [(- (1) / (2 + d))%Q])) as (ds & E' & F); [intros; apply H; right; auto|]. exists (d :: ds). rewrite E', <- app_assoc. split; auto.
Qed.
Lemma Forall2_len' {A B} (R : A -> B -> Prop) l l' : Forall2 R l l' -> length l = length l'.
Proof. induction 1; cbn; auto. Qed.
Lemma Forall2_at {A B} (R : A -> B -> Prop) : forall l l', Forall2 R l l' -> forall i a, nth_error l i = Some a -> exists b, nth_error l' i = Some b /\ R a b.
Proof. induction 1; intros [|i] c Hc; cbn in *; try discriminate; [injection Hc as <-; eauto|eauto]. Qed.
End Near.
Theorem nearest_ok X sort dist index pop archive : std_sort_ok sort -> (forall x y : X, dist x y = dist y x) -> length (pop ++ archive) <> 1 ->
  exists ds, nearest_neighbour X sort dist index pop archive = Ok (map (fun d => (- (1) / (2 + d))%Q) ds) /\ length ds = length (pop ++ archive) /\
    forall before x after, pop ++ archive = before ++ x :: after -> exists d, nth_error ds (length before) = Some d /\ kth_smallest (Nat.max 1 (Nat.min index (length (before ++ after)))) (map (dist x) (before ++ after)) d.
Proof.
  intros Hs Hsym Hn. unfold nearest_neighbour. rewrite distances_ok. cbn [rbind]. set (all := pop ++ archive) in *. set (rows := map _ _).
  assert (Hr : forall r, In r rows -> exists b x a, all = b ++ x :: a /\ r = map (dist x) (b ++ a)).
  { intros r Hr. apply in_map_iff in Hr as (i & <- & Hi). apply in_seq in Hi. destruct (nth_error all i) as [x|] eqn:Ex; [|apply nth_error_None in Ex; lia].
    apply nth_error_split in Ex as (b & a & E & L). exists b, x, a. split; auto. rewrite <- L. apply row_split; auto. }
  destruct (for_in_rows (fun row => get_element index (sort Q qltb row)) rows []) as (ds & E & F).
  { intros r H. destruct (Hr r H) as (b & x & a & Ea & ->). destruct (get_element_ok sort Hs index (map (dist x) (b ++ a))) as (d & Ed & _); eauto.
    intros Z. apply (f_equal (@length _)) in Z. rewrite map_length in Z. apply (f_equal (@length _)) in Ea. rewrite app_length in Ea. cbn in Ea. rewrite app_length in Z. cbn in Z. lia. }
  rewrite E. cbn [app]. exists ds. split; auto. assert (Lr : length rows = length all) by (unfold rows; rewrite map_length, seq_length; auto). split; [rewrite <- (Forall2_len' _ _ _ F); auto|].
  intros b x a Ea. assert (Hb : length b < length all) by (rewrite Ea, app_length; cbn; lia).
  assert (Er : nth_error rows (length b) = Some (map (dist x) (b ++ a))).
  { unfold rows. rewrite nth_error_map', nth_error_seq' by auto. cbn [option_map Nat.add]. f_equal. apply row_split; auto. }
  destruct (Forall2_at _ _ _ F _ _ Er) as (d & Ed & Eg). exists d. split; auto. destruct (get_element_ok sort Hs index (map (dist x) (b ++ a))) as (d' & Ed' & K).
  { intros Z. apply (f_equal (@length _)) in Z. rewrite map_length in Z. apply (f_equal (@length _)) in Ea. rewrite app_length in Ea. cbn in Ea. rewrite app_length in Z. cbn in Z. lia. }
  rewrite map_length in K. congruence.
Qed.

(** ** sharing *)
Definition table (n : nat) (f : nat -> nat -> Q) : list (list Q) := map (fun i => map (f i) (seq 0 n)) (seq 0 n).
Lemma put_table n f i j d : i < n -> j < n -> put (table n f) i j d = Ok (table n (fun a b => if (a =? i) && (b =? j) then d else f a b)).
Proof.
  intros Hi Hj. unfold put, table. rewrite nth_error_map', nth_error_seq' by auto. cbn [option_map of_opt rbind Nat.add]. rewrite upd_set by (rewrite map_length, seq_length; auto). cbn [of_opt rbind].
  rewrite upd_set by (rewrite map_length, seq_length; auto). cbn [of_opt]. f_equal. apply map_seq_set; auto.
  - rewrite Nat.eqb_refl. cbn [andb]. symmetry. apply map_seq_set; auto; [rewrite Nat.eqb_refl; auto|]. intros x _ Hx. destruct (Nat.eqb_spec x j); [congruence|auto].
  - intros x _ Hx. destruct (Nat.eqb_spec x i); [congruence|auto].
Qed.
Section Share.
Variable X : Type.
Variable fit : X -> Q.
Variable dist : X -> X -> Q.
Variable close : Q -> Q.
Variable niche : Q.
Variable pop : list X.
Notation n := (length pop).
Definition far (a b : nat) : Q := if a =? b then 0%Q else match nth_error pop (Nat.max a b), nth_error pop (Nat.min a b) with Some x, Some y => dist x y | _, _ => 0%Q end.
Lemma far_sym a b : far a b = far b a.
Proof. unfold far. rewrite (Nat.eqb_sym b a), (Nat.max_comm b a), (Nat.min_comm b a). auto. Qed.
Lemma matrix_inner i : i < n -> forall c j f, j + c = i -> (forall a b, a < i -> b < i -> f a b = far a b) -> f i i = 0%Q -> (forall b, b < j -> f i b = far i b /\ f b i = far b i) ->
  exists g, for_in (seq j c) (fun j m => let! x := of_opt (nth_error pop i) in let! y := of_opt (nth_error pop j) in let! m := put m i j (dist x y) in put m j i (dist x y)) (table n f) = Ok (table n g) /\
   forall a b, a <= i -> b <= i -> g a b = far a b.
Proof.
  intros Hi. induction c as [|c IH]; intros j f Hc H1 H2 H3; cbn [seq for_in].
  - exists f. split; auto. intros a b Ha Hb. destruct (Nat.eq_dec a i) as [->|], (Nat.eq_dec b i) as [->|]; [unfold far; rewrite Nat.eqb_refl; auto|apply H3; lia|apply H3; lia|apply H1; lia].
  - match goal with |- context [for_in (seq (S j) c) ?b] => set (body := b) in * end.
    destruct (nth_error pop i) as [x|] eqn:Ex; [|apply nth_error_None in Ex; lia]. destruct (nth_error pop j) as [y|] eqn:Ey; [|apply nth_error_None in Ey; lia]. cbn [of_opt rbind].
    rewrite put_table by lia. cbn [rbind]. rewrite put_table by lia. cbn [rbind].
    assert (D : far i j = dist x y). { unfold far. destruct (Nat.eqb_spec i j); [lia|]. rewrite Nat.max_l, Nat.min_r by lia. rewrite Ex, Ey. auto. }
    apply IH; [lia|..].
    + intros a b Ha Hb. destruct (Nat.eqb_spec a j), (Nat.eqb_spec b i), (Nat.eqb_spec a i), (Nat.eqb_spec b j); cbn; try lia; apply H1; auto.
    + destruct (Nat.eqb_spec i j), (Nat.eqb_spec i i); cbn; try lia; auto.
    + intros b Hb. destruct (Nat.eq_dec b j) as [->|].
      * rewrite (far_sym j i), D. destruct (Nat.eqb_spec i j), (Nat.eqb_spec j i), (Nat.eqb_spec i i), (Nat.eqb_spec j j); cbn; try lia; auto.
      * destruct (H3 b) as [A B]; [lia|]. destruct (Nat.eqb_spec i j), (Nat.eqb_spec b i), (Nat.eqb_spec i i), (Nat.eqb_spec b j); cbn; try lia; auto.
Qed.
Lemma table_zero : repeat (repeat 0%Q n) n = table n (fun _ _ => 0%Q).
Proof.
  unfold table. assert (G : forall {T} (v : T) m, repeat v m = map (fun _ => v) (seq 0 m)) by (intros T v m; induction m as [|m IH]; cbn; auto; f_equal; rewrite <- seq_shift, map_map; auto).
  rewrite (G _ 0%Q). rewrite G. auto.
Qed.
Lemma distance_matrix_ok : pop <> [] -> exists g, distance_matrix X dist pop = Ok (table n g) /\ forall a b, a < n -> b < n -> g a b = far a b.
Proof.
  intros Hne. assert (Hn : 0 < n) by (destruct pop; [congruence|cbn; lia]). unfold distance_matrix. rewrite table_zero, put_table by lia. cbn [rbind].
  assert (G : forall c i f, i + c = n -> (forall a b, a < i -> b < i -> f a b = far a b) ->
    exists g, for_in (seq i c) (fun i m => let! m := put m i i 0%Q in for_in (seq 0 i) (fun j m => let! x := of_opt (nth_error pop i) in let! y := of_opt (nth_error pop j) in let! m := put m i j (dist x y) in put m j i (dist x y)) m) (table n f) = Ok (table n g) /\
      forall a b, a < n -> b < n -> g a b = far a b).
  { induction c as [|c IH]; intros i f Hc Hf; cbn [seq for_in].
    - exists f. split; auto. intros a b Ha Hb. apply Hf; lia.
    - rewrite put_table by lia. cbn [rbind]. edestruct (matrix_inner i ltac:(lia) i 0) as (g & E & Hg); [lia|..|rewrite E; cbn [rbind]; apply IH; [lia|intros; apply Hg; lia]].
      + intros a b Ha Hb. cbv beta. destruct (Nat.eqb_spec a i); [lia|]. cbn. auto.
      + cbv beta. rewrite Nat.eqb_refl. auto.
      + intros; lia. }
  apply G; [lia|intros; lia].
Qed.
Definition apart (a b : nat) : Q := match nth_error pop a, nth_error pop b with Some x, Some y => if Qeq_bool (fit x) (fit y) then far a b else niche | _, _ => 0%Q end.
Lemma Qeq_bool_sym' a b : Qeq_bool a b = Qeq_bool b a.
Proof. destruct (Qeq_bool a b) eqn:E, (Qeq_bool b a) eqn:F; auto; [apply Qeq_bool_eq in E|apply Qeq_bool_eq in F]; [assert (b == a)%Q as X0 by lra|assert (a == b)%Q as X0 by lra]; apply Qeq_bool_iff in X0; congruence. Qed.
Lemma apart_diag a : a < n -> apart a a = far a a.
Proof. intros H. unfold apart. destruct (nth_error pop a) as [x|] eqn:E; [|apply nth_error_None in E; lia]. destruct (Qeq_bool (fit x) (fit x)) eqn:Q; auto. assert (X0 : (fit x == fit x)%Q) by reflexivity. apply Qeq_bool_iff in X0. congruence. Qed.
Lemma apart_sym a b : a < n -> b < n -> apart a b = apart b a.
Proof. intros Ha Hb. unfold apart. destruct (nth_error pop a) as [x|] eqn:E; [|apply nth_error_None in E; lia]. destruct (nth_error pop b) as [y|] eqn:F; [|apply nth_error_None in F; lia]. rewrite (Qeq_bool_sym' (fit y) (fit x)), (far_sym b a). auto. Qed.
(** pairs below the current one are separated, the others still at their distance *)
Definition seen (i j a b : nat) : bool := let mx := Nat.max a b in let mn := Nat.min a b in (mx <? i) || ((mx =? i) && (mn <? j)).
Definition mid (i j a b : nat) : Q := if seen i j a b then apart a b else far a b.
Lemma separate_ok g : (forall a b, a < n -> b < n -> g a b = far a b) -> exists g', separate_fronts X fit niche pop (table n g) = Ok (table n g') /\ forall a b, a < n -> b < n -> g' a b = apart a b.
Proof.
  intros Hg. unfold separate_fronts.
  assert (I : forall i, i < n -> forall c j f, j + c = i -> (forall a b, a < n -> b < n -> f a b = mid i j a b) ->
    exists g, for_in (seq j c) (fun j m => let! x := of_opt (nth_error pop i) in let! y := of_opt (nth_error pop j) in if Qeq_bool (fit x) (fit y) then Ok m else let! m := put m i j niche in put m j i niche) (table n f) = Ok (table n g) /\ forall a b, a < n -> b < n -> g a b = mid i i a b).
  { intros i Hi. induction c as [|c IH]; intros j f Hc Hf; cbn [seq for_in].
    - exists f. split; auto. assert (Ej : j = i) by lia. intros a b Ha Hb. rewrite (Hf a b Ha Hb), Ej. auto.
    - match goal with |- context [for_in (seq (S j) c) ?b] => set (body := b) in * end.
    destruct (nth_error pop i) as [x|] eqn:Ex; [|apply nth_error_None in Ex; lia]. destruct (nth_error pop j) as [y|] eqn:Ey; [|apply nth_error_None in Ey; lia]. cbn [of_opt rbind].
      assert (St : forall a b, a < n -> b < n -> ~ (a = i /\ b = j) -> ~ (a = j /\ b = i) -> mid i (S j) a b = mid i j a b).
      { intros a b Ha Hb N1 N2. unfold mid, seen. destruct (Nat.ltb_spec (Nat.max a b) i), (Nat.eqb_spec (Nat.max a b) i), (Nat.ltb_spec (Nat.min a b) (S j)), (Nat.ltb_spec (Nat.min a b) j); cbn; auto; lia. }
      assert (S1 : seen i (S j) i j = true) by (unfold seen; rewrite Nat.max_l, Nat.min_r by lia; rewrite Nat.eqb_refl; destruct (Nat.ltb_spec i i), (Nat.ltb_spec j (S j)); cbn; auto; lia).
      assert (S2 : seen i (S j) j i = true) by (unfold seen; rewrite Nat.max_r, Nat.min_l by lia; rewrite Nat.eqb_refl; destruct (Nat.ltb_spec i i), (Nat.ltb_spec j (S j)); cbn; auto; lia).
      assert (S3 : seen i j i j = false) by (unfold seen; rewrite Nat.max_l, Nat.min_r by lia; rewrite Nat.eqb_refl; destruct (Nat.ltb_spec i i), (Nat.ltb_spec j j); cbn; auto; lia).
      assert (S4 : seen i j j i = false) by (unfold seen; rewrite Nat.max_r, Nat.min_l by lia; rewrite Nat.eqb_refl; destruct (Nat.ltb_spec i i), (Nat.ltb_spec j j); cbn; auto; lia).
      destruct (Qeq_bool (fit x) (fit y)) eqn:Q.
      + cbn [rbind]. apply IH; [lia|]. intros a b Ha Hb. rewrite (Hf a b Ha Hb). destruct (Nat.eq_dec a i) as [->|], (Nat.eq_dec b j) as [->|]; try (destruct (Nat.eq_dec a j) as [->|], (Nat.eq_dec b i) as [->|]); try (symmetry; apply St; auto; lia).
        * unfold mid. rewrite S1, S3. unfold apart. rewrite Ex, Ey, Q. auto.
        * unfold mid. rewrite S2, S4. unfold apart. rewrite Ex, Ey, (Qeq_bool_sym' (fit y)), Q. auto.
      + rewrite put_table by lia. cbn [rbind]. rewrite put_table by lia. cbn [rbind]. apply IH; [lia|]. intros a b Ha Hb.
        destruct (Nat.eqb_spec a j) as [->|Naj], (Nat.eqb_spec b i) as [->|Nbi]; cbn [andb].
        * unfold mid. rewrite S2. unfold apart. rewrite Ey, Ex, (Qeq_bool_sym' (fit y)), Q. auto.
        * destruct (Nat.eqb_spec j i); [lia|]. cbn [andb]. rewrite Hf by auto. symmetry. apply St; auto; lia.
        * destruct (Nat.eqb_spec i j); [lia|]. destruct (Nat.eqb_spec a i) as [->|]; cbn [andb]; rewrite Hf by auto; symmetry; apply St; auto; lia.
        * destruct (Nat.eqb_spec a i) as [->|], (Nat.eqb_spec b j) as [->|]; cbn [andb]; try (rewrite Hf by auto; symmetry; apply St; auto; lia).
          unfold mid. rewrite S1. unfold apart. rewrite Ex, Ey, Q. auto. }
  assert (G : forall c i f, i + c = n -> (forall a b, a < n -> b < n -> f a b = mid i 0 a b) ->
    exists g, for_in (seq i c) (fun i m => for_in (seq 0 i) (fun j m => let! x := of_opt (nth_error pop i) in let! y := of_opt (nth_error pop j) in if Qeq_bool (fit x) (fit y) then Ok m else let! m := put m i j niche in put m j i niche) m) (table n f) = Ok (table n g) /\ forall a b, a < n -> b < n -> g a b = apart a b).
  { induction c as [|c IH]; intros i f Hc Hf; cbn [seq for_in].
    - exists f. split; auto. intros a b Ha Hb. rewrite Hf by auto. unfold mid, seen. destruct (Nat.ltb_spec (Nat.max a b) i); cbn; auto. lia.
    - destruct (I i ltac:(lia) i 0 f ltac:(lia) Hf) as (g1 & E1 & H1). rewrite E1. cbn [rbind]. apply IH; [lia|]. intros a b Ha Hb. rewrite H1 by auto. unfold mid, seen.
      destruct (Nat.eq_dec a b) as [->|Hab]; [rewrite apart_diag by auto; destruct (_ || _), (_ || _); auto|].
      destruct (Nat.ltb_spec (Nat.max a b) i), (Nat.ltb_spec (Nat.max a b) (S i)), (Nat.eqb_spec (Nat.max a b) i), (Nat.eqb_spec (Nat.max a b) (S i)), (Nat.ltb_spec (Nat.min a b) i), (Nat.ltb_spec (Nat.min a b) 0); cbn; auto; lia. }
  apply G; [lia|]. intros a b Ha Hb. rewrite Hg by auto. unfold mid, seen. destruct (Nat.ltb_spec (Nat.max a b) 0), (Nat.eqb_spec (Nat.max a b) 0), (Nat.ltb_spec (Nat.min a b) 0); cbn; auto; lia.
Qed.
Lemma similarities_ok g : exists l, similarities close niche n (table n g) = Ok l /\ length l = n /\ forall i, i < n -> exists v, nth_error l i = Some v /\ (v == qsum (seq 0 n) (fun j => sh close niche (g i j)))%Q.
Proof.
  unfold similarities.
  assert (R : forall i, i < n -> exists v, for_in (seq 0 n) (fun j s => let! row := of_opt (nth_error (table n g) i) in let! d := of_opt (nth_error row j) in Ok (s + sh close niche d)%Q) 0%Q = Ok v /\ (v == qsum (seq 0 n) (fun j => sh close niche (g i j)))%Q).
  { intros i Hi. destruct (for_in_qsum (fun j s => let! row := of_opt (nth_error (table n g) i) in let! d := of_opt (nth_error row j) in Ok (s + sh close niche d)%Q) (fun j => sh close niche (g i j)) (seq 0 n) 0%Q) as (v & E & Ev).
    - intros j acc Hj. apply in_seq in Hj. unfold table. rewrite nth_error_map', nth_error_seq' by auto. cbn [option_map of_opt rbind Nat.add]. rewrite nth_error_map', nth_error_seq' by lia. auto.
    - exists v. split; auto. rewrite Ev. lra. }
  assert (G : forall c i acc, i + c = n -> length acc = i -> (forall k, k < i -> exists v, nth_error acc k = Some v /\ (v == qsum (seq 0 n) (fun j => sh close niche (g k j)))%Q) ->
    exists l, for_in (seq i c) (fun i acc => let! s := for_in (seq 0 n) (fun j s => let! row := of_opt (nth_error (table n g) i) in let! d := of_opt (nth_error row j) in Ok (s + sh close niche d)%Q) 0%Q in Ok (acc ++ [s])) acc = Ok l /\ length l = n /\
    forall i, i < n -> exists v, nth_error l i = Some v /\ (v == qsum (seq 0 n) (fun j => sh close niche (g i j)))%Q).
  { induction c as [|c IH]; intros i acc Hc La Ha; cbn [seq for_in]; [exists acc; split; auto; split; [lia|intros k Hk; apply Ha; lia]|]. destruct (R i ltac:(lia)) as (v & E & Ev). rewrite E. cbn [rbind].
    apply IH; [lia|rewrite app_length; cbn; lia|]. intros k Hk. destruct (Nat.eq_dec k i) as [->|].
    - exists v. split; auto. rewrite nth_error_app2 by lia. replace (i - length acc) with 0 by lia. auto.
    - rewrite nth_error_app1 by lia. apply Ha. lia. }
  apply (G n 0 []); auto. intros; lia.
Qed.
Lemma max_fold : forall r x, let m := fold_left (fun m y => if qltb m y then y else m) r x in (In m (x :: r)) /\ forall y, In y (x :: r) -> (y <= m)%Q.
Proof.
  induction r as [|z r IH]; intros x; cbn [fold_left]; [split; [left; auto|intros y [<-|[]]; lra]|]. destruct (IH (if qltb x z then z else x)) as [A B]. set (m := fold_left _ r _) in *. split.
  - destruct A as [<-|A]; [destruct (qltb x z); [right; left|left]; auto|right; right; auto].
  - assert ((if qltb x z then z else x) <= m)%Q as M by (apply B; left; auto). intros y [<-|[<-|Hy]]; [| |apply B; right; auto]; destruct (qltb x z) eqn:E; try apply qltb_lt in E; try apply qltb_ge in E; lra.
Qed.
Lemma invert_ok l : l <> [] -> exists mx, invert l = Ok (map (fun s => (mx - s)%Q) l) /\ In mx l /\ forall y, In y l -> (y <= mx)%Q.
Proof. intros H. destruct l as [|x r]; [congruence|]. unfold invert. cbn [max_element rbind]. eexists. split; [reflexivity|]. apply max_fold. Qed.
(** the sums as niche counts *)
Hypothesis dist_sym : forall x y, dist x y = dist y x.
Hypothesis dist_self : forall x, dist x x = 0%Q.
Lemma far_dist a b x y : nth_error pop a = Some x -> nth_error pop b = Some y -> far a b = dist x y.
Proof.
  intros Ha Hb. unfold far. destruct (Nat.eqb_spec a b) as [->|]; [assert (x = y) as -> by congruence; auto|].
  destruct (Nat.lt_ge_cases a b); [rewrite Nat.max_r, Nat.min_l by lia|rewrite Nat.max_l, Nat.min_r by lia]; rewrite Ha, Hb; auto.
Qed.
Lemma sh_alt d : sh close niche d = if Qlt_le_dec d niche then close d else 0%Q.
Proof. unfold sh. destruct (qltb d niche) eqn:E, (Qlt_le_dec d niche); auto; [apply qltb_lt in E|apply qltb_ge in E]; exfalso; lra. Qed.
Lemma qsum_seq (f : nat -> Q) (h : X -> Q) : (forall j y, nth_error pop j = Some y -> f j == h y)%Q -> (qsum (seq 0 n) f == qsum pop h)%Q.
Proof.
  intros H. assert (G : forall l pre, pop = pre ++ l -> (qsum (seq (length pre) (length l)) f == qsum l h)%Q).
  { induction l as [|y l IH]; intros pre E; cbn [length seq]; [reflexivity|]. rewrite !qsum_cons. rewrite (H (length pre) y) by (rewrite E, nth_error_app2, Nat.sub_diag by lia; auto).
    specialize (IH (pre ++ [y])). rewrite app_length in IH. cbn [length] in IH. replace (length pre + 1) with (S (length pre)) in IH by lia. rewrite IH; [reflexivity|]. rewrite <- app_assoc. auto. }
  apply (G pop []). auto.
Qed.
Lemma count_far i x : nth_error pop i = Some x -> (qsum (seq 0 n) (fun j => sh close niche (far i j)) == niche_count close niche dist x pop)%Q.
Proof. intros Hx. apply qsum_seq. intros j y Hy. rewrite (far_dist i j x y Hx Hy), sh_alt. reflexivity. Qed.
Lemma count_apart i x : nth_error pop i = Some x -> (qsum (seq 0 n) (fun j => sh close niche (apart i j)) == niche_count close niche dist x (front_of X fit (fit x) pop))%Q.
Proof.
  intros Hx. unfold niche_count, front_of. rewrite qsum_filter. apply qsum_seq. intros j y Hy. unfold apart. rewrite Hx, Hy, (Qeq_bool_sym' (fit y) (fit x)), (far_dist i j x y Hx Hy), sh_alt.
  destruct (Qeq_bool (fit x) (fit y)); [reflexivity|]. destruct (Qlt_le_dec niche niche); [exfalso; lra|reflexivity].
Qed.
Lemma finish g (nc : X -> Q) : pop <> [] -> (forall i x, nth_error pop i = Some x -> (qsum (seq 0 n) (fun j => sh close niche (g i j)) == nc x)%Q) ->
  exists l mx, (let! l := similarities close niche n (table n g) in invert l) = Ok l /\ length l = n /\ (forall x, In x pop -> (nc x <= mx)%Q) /\ (exists x, In x pop /\ (nc x == mx)%Q) /\
    forall i x, nth_error pop i = Some x -> exists v, nth_error l i = Some v /\ (v == mx - nc x)%Q.
Proof.
  intros Hne Hc. assert (Hn : 0 < n) by (destruct pop; [congruence|cbn; lia]). destruct (similarities_ok g) as (l & E & L & H). rewrite E. cbn [rbind].
  destruct (invert_ok l) as (mx & Ei & Hin & Hmax); [intros ->; cbn in L; lia|]. rewrite Ei.
  assert (Hs : forall i x, nth_error pop i = Some x -> exists v, nth_error l i = Some v /\ (v == nc x)%Q).
  { intros i x Hx. destruct (H i) as (v & Ev & Hv); [apply nth_error_Some; congruence|]. exists v. split; auto. rewrite Hv. apply Hc. auto. }
  exists (map (fun s => (mx - s)%Q) l), mx. split; auto. split; [rewrite map_length; auto|]. split; [|split].
  - intros x Hx. apply In_nth_error in Hx as (i & Hi). destruct (Hs i x Hi) as (v & Ev & <-). apply Hmax. eapply nth_error_In; eauto.
  - apply In_nth_error in Hin as (i & Hi). assert (i < n) by (rewrite <- L; apply nth_error_Some; congruence). destruct (nth_error pop i) as [x|] eqn:Ex; [|apply nth_error_None in Ex; lia].
    destruct (Hs i x Ex) as (v & Ev & Hv). exists x. split; [eapply nth_error_In; eauto|]. rewrite <- Hv. assert (v = mx) as -> by congruence. reflexivity.
  - intros i x Hx. destruct (Hs i x Hx) as (v & Ev & Hv). exists (mx - v)%Q. rewrite nth_error_map', Ev. split; auto. rewrite Hv. reflexivity.
Qed.
Theorem sharing_ok : pop <> [] -> let nc x := niche_count close niche dist x pop in
  exists l mx, sharing X dist close niche pop = Ok l /\ length l = n /\ (forall x, In x pop -> (nc x <= mx)%Q) /\ (exists x, In x pop /\ (nc x == mx)%Q) /\
    forall i x, nth_error pop i = Some x -> exists v, nth_error l i = Some v /\ (v == mx - nc x)%Q.
Proof.
  intros Hne nc. destruct (distance_matrix_ok Hne) as (g & E & Hg). unfold sharing. rewrite E. cbn [rbind]. apply finish; auto.
  intros i x Hx. unfold nc. rewrite <- (count_far i x Hx). apply qsum_ext. intros j Hj. apply in_seq in Hj. rewrite Hg; [reflexivity|apply nth_error_Some; congruence|lia].
Qed.
Theorem front_sharing_ok : pop <> [] -> let nc x := niche_count close niche dist x (front_of X fit (fit x) pop) in
  exists l mx, front_by_front_sharing X fit dist close niche pop = Ok l /\ length l = n /\ (forall x, In x pop -> (nc x <= mx)%Q) /\ (exists x, In x pop /\ (nc x == mx)%Q) /\
    forall i x, nth_error pop i = Some x -> exists v, nth_error l i = Some v /\ (v == mx - nc x)%Q.
Proof.
  intros Hne nc. destruct (distance_matrix_ok Hne) as (g & E & Hg). destruct (separate_ok g Hg) as (g' & E' & Hg'). unfold front_by_front_sharing. rewrite E. cbn [rbind]. rewrite E'. cbn [rbind]. apply finish; auto.
  intros i x Hx. unfold nc. rewrite <- (count_apart i x Hx). apply qsum_ext. intros j Hj. apply in_seq in Hj. rewrite Hg'; [reflexivity|apply nth_error_Some; congruence|lia].
Qed.
End Share.
