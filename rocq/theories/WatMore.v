(** Proofs about the statistics and the fitness with constraints. *)
From Coq Require Import List Arith Lia Bool ZArith QArith Qminmax Lqa.
From Verif Require Import Lib Outcome ReplModel ReplProofs HvModel HvSpec HvMetric WgtModel EvalSpec WatModel WatSpec WatProofs.
From Coq Require Import List.
Import ListNotations.
Close Scope Q_scope.
Open Scope nat_scope.

(** ** the average *)
Lemma sum_of_ok o : forall pop acc, (forall p, In p pop -> o < length p) -> exists s, sum_of o pop acc = Ok s /\ (s == acc + qsum pop (fun p => nth o p 0))%Q.
Proof.
  induction pop as [|p pop IH]; intros acc H; cbn [sum_of qsum fold_right]; [exists acc; split; auto; lra|].
  destruct (nth_error_in_some p o) as [x Hx]; [apply H; cbn; auto|]. rewrite Hx. cbn [of_opt rbind]. destruct (IH (acc + x)%Q) as (s & E & Hs); [intros r Hr; apply H; cbn; auto|].
  exists s. split; auto. rewrite Hs. rewrite (nth_error_nth p o 0%Q Hx). unfold qsum. ring.
Qed.
Lemma average_ok n pop : pop <> [] -> (forall p, In p pop -> n <= length p) ->
  exists l, average_stat n pop = Ok l /\ length l = n /\ forall o x, nth_error l o = Some x -> (x * natQ (length pop) == qsum pop (fun p => nth o p 0))%Q.
Proof.
  intros Hne Hl. assert (Hlen : length pop <> 0) by (destruct pop; [congruence|discriminate]).
  unfold average_stat. destruct (for_all_ok (fun o => let! s := sum_of o pop 0%Q in if length pop =? 0 then UB else Ok (s / inject_Z (Z.of_nat (length pop)))%Q) (fun o x => (x * natQ (length pop) == qsum pop (fun p => nth o p 0))%Q) (seq 0 n)) as (l & E & F).
  - intros o Ho. apply in_seq in Ho. destruct (sum_of_ok o pop 0%Q) as (s & Es & Hs); [intros p Hp; specialize (Hl p Hp); lia|]. rewrite Es. cbn [rbind].
    rewrite (proj2 (Nat.eqb_neq _ _)) by auto. eexists. split; [reflexivity|]. fold (natQ (length pop)). assert (0 < natQ (length pop))%Q by (unfold natQ; change 0%Q with (inject_Z 0); rewrite <- Zlt_Qlt; lia).
    rewrite <- (Qplus_0_l (qsum pop _)), <- Hs. field. lra.
  - exists l. split; auto. pose proof (HvMetric.Forall2_len _ _ _ F) as L. rewrite seq_length in L. split; auto. intros o x Hx. assert (o < n) by (apply nth_error_lt in Hx; lia).
    apply (HvMetric.Forall2_nth _ _ _ F o o x); auto. rewrite nth_error_seq' by auto. f_equal; lia.
Qed.

(** ** the best values *)
Definition le_on (d : bool) (x y : Q) : Prop := if d then (x <= y)%Q else (y <= x)%Q.
Definition lt_on (d : bool) (x y : Q) : Prop := if d then (x < y)%Q else (y < x)%Q.
Lemma obj_less_true d x y : obj_less d x y = true -> lt_on d y x.
Proof. destruct d; cbn; intros H; apply qlt_lt in H; auto. Qed.
Lemma obj_less_false d x y : obj_less d x y = false -> le_on d x y.
Proof. destruct d; cbn; intros H; apply qlt_ge in H; auto. Qed.
Lemma max_el_ok d o : forall rest pre b x, (forall p, In p rest -> o < length p) -> best_value d o pre b x -> exists b' x', max_el d o rest (length pre) b x = Ok (b', x') /\ best_value d o (pre ++ rest) b' x'.
Proof.
  induction rest as [|p rest IH]; intros pre b x Hl Hb; cbn [max_el]; [exists b, x; rewrite app_nil_r; auto|].
  destruct (nth_error_in_some p o) as [y Hy]; [apply Hl; cbn; auto|]. rewrite Hy. cbn [of_opt rbind]. destruct Hb as ((p0 & Hp0 & Hx0) & Hall & Hfirst).
  replace (S (length pre)) with (length (pre ++ [p])) by (rewrite app_length; cbn; lia). replace (pre ++ p :: rest) with ((pre ++ [p]) ++ rest) by (rewrite <- app_assoc; auto).
  assert (Hb0 : b < length pre) by (apply nth_error_lt in Hp0; auto).
  destruct (obj_less d x y) eqn:E.
  - apply obj_less_true in E. apply IH; [intros r Hr; apply Hl; cbn; auto|]. repeat split.
    + exists p. rewrite nth_error_app2 by lia. rewrite Nat.sub_diag. auto.
    + intros r z Hr Hz. apply in_app_iff in Hr as [Hr|[<-|[]]].
      * specialize (Hall r z Hr Hz). destruct d; cbn in *; lra.
      * assert (z = y) as -> by congruence. destruct d; lra.
    + intros j r z Hj Hr Hz. rewrite nth_error_app1 in Hr by auto. apply nth_error_In in Hr. specialize (Hall r z Hr Hz). destruct d; cbn in *; lra.
  - apply obj_less_false in E. apply IH; [intros r Hr; apply Hl; cbn; auto|]. repeat split.
    + exists p0. rewrite nth_error_app1 by auto. auto.
    + intros r z Hr Hz. apply in_app_iff in Hr as [Hr|[<-|[]]]; [exact (Hall r z Hr Hz)|]. assert (z = y) as -> by congruence. exact E.
    + intros j r z Hj Hr Hz. rewrite nth_error_app1 in Hr by lia. exact (Hfirst j r z Hj Hr Hz).
Qed.
Lemma best_on_ok d o pop : pop <> [] -> (forall p, In p pop -> o < length p) -> exists i x, best_on d o pop = Ok (i, x) /\ best_value d o pop i x.
Proof.
  intros Hne Hl. destruct pop as [|p pop]; [congruence|]. unfold best_on. destruct (nth_error_in_some p o) as [x Hx]; [apply Hl; cbn; auto|]. rewrite Hx. cbn [of_opt rbind].
  destruct (max_el_ok d o pop [p] 0 x) as (b & y & E & H); [intros r Hr; apply Hl; cbn; auto| |exists b, y; auto].
  repeat split.
  - exists p. auto.
  - intros r z [<-|[]] Hz. assert (z = x) as -> by congruence. destruct d; lra.
  - intros j r z Hj. lia.
Qed.
Definition found (dirs : list bool) (pop : list point) (o : nat) (b : nat * Q) : Prop := forall d, nth_error dirs o = Some d -> best_value d o pop (fst b) (snd b).
Lemma best_call_ok dirs call st pop : pop <> [] -> (forall p, In p pop -> length dirs <= length p) -> exists l, length l = length dirs /\ (forall o b, nth_error l o = Some b -> found dirs pop o b) /\
  best_call dirs call st pop = Ok (BestStat (map snd l) (bs_found st ++ map (fun b => (call, fst b)) l)).
Proof.
  intros Hne Hl. unfold best_call.
  destruct (for_all_ok (fun o => let! d := of_opt (nth_error dirs o) in best_on d o pop) (found dirs pop) (seq 0 (length dirs))) as (l & E & F).
  - intros o Ho. apply in_seq in Ho. destruct (nth_error_in_some dirs o) as [d Hd]; [lia|]. rewrite Hd. cbn [of_opt rbind].
    destruct (best_on_ok d o pop) as (i & x & E & H); auto; [intros p Hp; specialize (Hl p Hp); lia|]. exists (i, x). split; auto. intros d' Hd'. assert (d' = d) as -> by congruence. auto.
  - rewrite E. cbn [rbind]. exists l. pose proof (HvMetric.Forall2_len _ _ _ F) as L. rewrite seq_length in L. split; auto. split; auto.
    intros o b Hb. assert (o < length dirs) by (apply nth_error_lt in Hb; lia). apply (HvMetric.Forall2_nth _ _ _ F o o b); auto. rewrite nth_error_seq' by auto. f_equal; lia.
Qed.
Lemma best_calls_ok dirs : forall pops call st, (forall pop, In pop pops -> pop <> [] /\ forall p, In p pop -> length dirs <= length p) ->
  exists st' more, best_calls dirs call st pops = Ok st' /\ bs_found st' = bs_found st ++ more /\ length more = length pops * length dirs /\
    (pops = [] -> st' = st) /\
    (forall pop, nth_error pops 0 = Some pop -> forall o d, nth_error dirs o = Some d -> exists i x, nth_error more o = Some (call, i) /\ best_value d o pop i x) /\
    (forall pop, last (map Some pops) None = Some pop -> length (bs_value st') = length dirs /\ forall o d, nth_error dirs o = Some d -> exists i x, nth_error (bs_value st') o = Some x /\ best_value d o pop i x).
Proof.
  induction pops as [|pop pops IH]; intros call st H; cbn [best_calls].
  - exists st, []. rewrite app_nil_r. repeat split; auto; intros; discriminate.
  - destruct (H pop) as [Hne Hl]; [cbn; auto|]. destruct (best_call_ok dirs call st pop Hne Hl) as (l & Ll & Hf & E). rewrite E. cbn [rbind].
    match goal with |- context[best_calls dirs (S call) ?s pops] => destruct (IH (S call) s) as (st' & more & E' & Hm & Lm & Hnil & _ & Hlast) end; [intros q Hq; apply H; cbn; auto|].
    exists st', (map (fun b => (call, fst b)) l ++ more). split; auto. split; [rewrite Hm; cbn [bs_found]; rewrite <- app_assoc; auto|].
    split; [rewrite app_length, map_length, Lm; cbn; lia|]. split; [discriminate|]. split.
    + intros q Hq o d Hd. cbn in Hq. injection Hq as <-. assert (Ho : o < length dirs) by (apply nth_error_lt in Hd; auto). destruct (nth_error_in_some l o) as [[i x] Hb]; [lia|].
      exists i, x. split; [|exact (Hf o (i, x) Hb d Hd)]. rewrite nth_error_app1 by (rewrite map_length; lia). rewrite nth_error_map', Hb. auto.
    + intros q Hq. destruct pops as [|q' pops].
      * cbn in Hq. injection Hq as <-. rewrite (Hnil eq_refl). cbn [bs_value]. split; [rewrite map_length; auto|]. intros o d Hd. assert (Ho : o < length dirs) by (apply nth_error_lt in Hd; auto).
        destruct (nth_error_in_some l o) as [[i x] Hb]; [lia|]. exists i, x. rewrite nth_error_map', Hb. split; auto. exact (Hf o (i, x) Hb d Hd).
      * apply Hlast. exact Hq.
Qed.

(** ** the binary metric *)
Definition filled (pop : list point) : bool := match pop with [] => false | _ => true end.
Lemma metric_calls_from T (metric : list point -> list point -> T) : forall pops v prev,
  fold_left (metric_call T metric) pops (v, prev) = fold_left (metric_call T metric) (filter filled pops) (v, prev).
Proof.
  induction pops as [|pop pops IH]; intros v prev; auto. cbn [fold_left filter]. destruct pop as [|p pop]; cbn [filled]; [apply IH|]. cbn [fold_left].
  destruct (metric_call T metric (v, prev) (p :: pop)) as [v' prev']. apply IH.
Qed.
Lemma metric_last T (metric : list point -> list point -> T) : forall l v prev, (forall p, In p l -> filled p = true) ->
  snd (fold_left (metric_call T metric) l (v, prev)) = last (map Some l) prev.
Proof.
  induction l as [|p l IH] using rev_ind; intros v prev H; auto. rewrite fold_left_app, map_app. cbn [map]. rewrite last_last. cbn [fold_left].
  specialize (H p). destruct p as [|x p]; [discriminate H; apply in_app_iff; cbn; auto|]. unfold metric_call at 1. destruct (snd (fold_left (metric_call T metric) l (v, prev))); auto.
Qed.
Lemma metric_two T (metric : list point -> list point -> T) l a b v : (forall p, In p (l ++ [a; b]) -> filled p = true) ->
  fst (fold_left (metric_call T metric) (l ++ [a; b]) (v, None)) = metric b a.
Proof.
  intros H. change [a; b] with ([a] ++ [b]). rewrite app_assoc, fold_left_app. cbn [fold_left].
  assert (Hs : snd (fold_left (metric_call T metric) (l ++ [a]) (v, None)) = Some a).
  { rewrite metric_last; [rewrite map_app; cbn [map]; apply last_last|]. intros p Hp. apply H. rewrite in_app_iff in *. cbn in *. tauto. }
  specialize (H b). destruct b as [|x b]; [discriminate H; apply in_app_iff; cbn; auto|]. unfold metric_call at 1. rewrite Hs. auto.
Qed.

(** ** constraints *)
Lemma part_ok (opt d : bool) w x y r : ((if opt then if d then r - x * w else r + x * w else if d then if qlt y x then r - (x - y) * w else r else if qlt x y then r + (x - y) * w else r) == r + part opt d w x y)%Q.
Proof.
  unfold part. destruct opt; [destruct d; ring|]. destruct d.
  - destruct (qlt y x) eqn:E; [apply qlt_lt in E; rewrite Q.max_r by lra; ring|apply qlt_ge in E; rewrite Q.max_l by lra; ring].
  - destruct (qlt x y) eqn:E; [apply qlt_lt in E; rewrite Q.max_r by lra; ring|apply qlt_ge in E; rewrite Q.max_l by lra; ring].
Qed.
Definition part_at (t : Z) (dirs : list bool) (w x y : list Q) (l i : nat) : Q := part (Z.of_nat (l + i) =? t)%Z (nth i dirs true) (nth i w 0%Q) (nth i x 0%Q) (nth i y 0%Q).
Lemma qsum_seq_S n (f : nat -> Q) : (qsum (seq 0 (S n)) f == f 0%nat + qsum (seq 0 n) (fun i => f (S i)))%Q.
Proof.
  cbn [seq]. unfold qsum. cbn [fold_right]. rewrite <- seq_shift. apply Qplus_comp; [reflexivity|]. generalize (seq 0 n). induction l as [|a l IH]; cbn; [reflexivity|]. rewrite IH. reflexivity.
Qed.
Lemma qsum_eq {T} (l : list T) f g : (forall a, In a l -> (f a == g a)%Q) -> (qsum l f == qsum l g)%Q.
Proof. induction l as [|a l IH]; intros H; unfold qsum; cbn; [reflexivity|]. fold (qsum l f). fold (qsum l g). rewrite (H a), IH; cbn; auto. reflexivity. intros; apply H; cbn; auto. Qed.
Lemma qsum_le {T} (l : list T) f g : (forall a, In a l -> (f a <= g a)%Q) -> (qsum l f <= qsum l g)%Q.
Proof. induction l as [|a l IH]; intros H; unfold qsum; cbn; [lra|]. fold (qsum l f). fold (qsum l g). pose proof (H a (or_introl eq_refl)). pose proof (IH (fun b Hb => H b (or_intror Hb))). lra. Qed.
Lemma constraint_loop_ok t : forall dirs l w x y r, length dirs <= length w -> length dirs <= length x -> length dirs <= length y ->
  exists f, constraint_loop t l dirs w x y r = Ok f /\ (f == r + qsum (seq 0 (length dirs)) (part_at t dirs w x y l))%Q.
Proof.
  induction dirs as [|d dirs IH]; intros l w x y r Lw Lx Ly; cbn [constraint_loop]; [exists r; split; auto; unfold qsum; cbn; lra|].
  destruct w as [|w0 w]; [cbn in Lw; lia|]. destruct x as [|x0 x]; [cbn in Lx; lia|]. destruct y as [|y0 y]; [cbn in Ly; lia|]. cbn [length] in Lw, Lx, Ly |- *.
  match goal with |- context[constraint_loop t (S l) dirs w x y ?r'] => destruct (IH (S l) w x y r') as (f & E & Hf); try lia end. exists f. split; auto. rewrite Hf, part_ok, qsum_seq_S.
  unfold part_at at 2. cbn [nth]. replace (l + 0) with l by lia.
  assert (Hq : (qsum (seq 0 (length dirs)) (part_at t dirs w x y (S l)) == qsum (seq 0 (length dirs)) (fun i => part_at t (d :: dirs) (w0 :: w) (x0 :: x) (y0 :: y) l (S i)))%Q).
  { apply qsum_eq. intros i _. unfold part_at. cbn [nth]. replace (S l + i) with (l + S i) by lia. reflexivity. }
  rewrite Hq. ring.
Qed.
Lemma scaled_ok : forall v sc, length v <= length sc -> exists s, scaled sc v = Ok s /\ length s = length v /\ forall i, i < length v -> (nth i s 0 == (nth i v 0 - snd (nth i sc (0, 0))) * fst (nth i sc (0, 0)))%Q.
Proof.
  induction v as [|x v IH]; intros sc H; [exists []; split; [destruct sc; auto|]; split; auto; cbn; lia|]. destruct sc as [|[c m] sc]; [cbn in H; lia|]. cbn [scaled]. cbn in H.
  destruct (IH sc) as (s & E & L & N); [lia|]. rewrite E. cbn [rbind]. eexists. split; [reflexivity|]. split; [cbn; lia|]. intros [|i] Hi; cbn; [reflexivity|]. apply N. cbn in Hi; lia.
Qed.
Lemma part_comp opt d w x x' y y' : (x == x')%Q -> (y == y')%Q -> (part opt d w x y == part opt d w x' y')%Q.
Proof. intros Hx Hy. unfold part. destruct opt; destruct d; rewrite ?Hx, ?Hy; reflexivity. Qed.
(** a value once normalised *)
Definition at_scale (sc : list (Q * Q)) (v : list Q) (i : nat) : Q := ((nth i v 0 - snd (nth i sc (0, 0))) * fst (nth i sc (0, 0)))%Q.
Lemma constraint_fitness_ok sc dirs w c t v : length dirs <= length w -> length v = length dirs -> length c = length dirs -> length dirs <= length sc ->
  exists f, constraint_fitness sc dirs w c t v = Ok f /\
    (f == qsum (seq 0 (length dirs)) (fun i => part (Z.of_nat i =? t)%Z (nth i dirs true) (nth i w 0%Q) ((nth i v 0 - snd (nth i sc (0, 0))) * fst (nth i sc (0, 0))) ((nth i c 0 - snd (nth i sc (0, 0))) * fst (nth i sc (0, 0)))))%Q.
Proof.
  intros Lw Lv Lc Ls. unfold constraint_fitness. rewrite (proj2 (Nat.ltb_ge _ _)) by auto.
  destruct (scaled_ok v sc) as (nv & Ev & Lnv & Nv); [lia|]. destruct (scaled_ok c sc) as (nc & Ec & Lnc & Nc); [lia|]. rewrite Ev. cbn [rbind]. rewrite Ec. cbn [rbind].
  destruct (constraint_loop_ok t dirs 0 w nv nc 0%Q) as (f & E & Hf); try lia. exists f. split; auto. rewrite Hf, Qplus_0_l. apply qsum_eq. intros i Hi. apply in_seq in Hi. unfold part_at. cbn [plus].
  apply part_comp; [apply Nv; lia|apply Nc; lia].
Qed.
Lemma part_mono (opt d : bool) w x x' y : (0 <= w)%Q -> (if d then (x <= x')%Q else (x' <= x)%Q) -> (part opt d w x' y <= part opt d w x y)%Q.
Proof.
  intros Hw Hx. unfold part. destruct opt; [destruct d; nra|]. destruct d.
  - assert (x - y <= x' - y)%Q as H by lra. pose proof (Q.max_le_compat_l _ _ 0%Q H). nra.
  - assert (y - x <= y - x')%Q as H by lra. pose proof (Q.max_le_compat_l _ _ 0%Q H). nra.
Qed.
Lemma constraint_mono sc dirs w c t u v fu fv : length dirs <= length w -> length u = length dirs -> length v = length dirs -> length c = length dirs -> length dirs <= length sc ->
  (forall x, In x w -> (0 <= x)%Q) -> (forall x, In x sc -> (0 <= fst x)%Q) -> at_least dirs u v ->
  constraint_fitness sc dirs w c t u = Ok fu -> constraint_fitness sc dirs w c t v = Ok fv -> (fv <= fu)%Q.
Proof.
  intros Lw Lu Lv Lc Ls Pw Ps Al Eu Ev. destruct (constraint_fitness_ok sc dirs w c t u) as (f & E & Hf); auto. destruct (constraint_fitness_ok sc dirs w c t v) as (f' & E' & Hf'); auto.
  assert (f = fu) as -> by congruence. assert (f' = fv) as -> by congruence. rewrite Hf, Hf'. apply qsum_le. intros i Hi. apply in_seq in Hi.
  destruct (nth_error_in_some dirs i) as [d Hd]; [lia|]. destruct (nth_error_in_some u i) as [x Hx]; [lia|]. destruct (nth_error_in_some v i) as [y Hy]; [lia|].
  rewrite (nth_error_nth dirs i true Hd), (nth_error_nth u i 0%Q Hx), (nth_error_nth v i 0%Q Hy). specialize (Al i d x y Hd Hx Hy).
  assert (0 <= nth i w 0)%Q by (apply Pw, nth_In; lia). assert (0 <= fst (nth i sc (0, 0)))%Q by (apply Ps, nth_In; lia).
  apply part_mono; auto. destruct d; (apply Qmult_le_compat_r; [lra|auto]).
Qed.
