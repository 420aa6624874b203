(** Proofs about the indicator-based fitness (C105). *)
From Coq Require Import List Bool QArith Arith Lia Lqa Permutation.
From Verif Require Import Lib Outcome BoundsModel BoundsProofs ParetoModel ParetoSpec ParetoProofs EvalModel EvalSpec EvalProofs EvalNk HvSpec IndModel IndSpec.
Import ListNotations.
Close Scope Q_scope.
Open Scope nat_scope.

(** ** bounds *)
Lemma std_min_spec a b : (std_min a b <= a)%Q /\ (std_min a b <= b)%Q /\ (std_min a b = a \/ std_min a b = b).
Proof. unfold std_min. destruct (qltb b a) eqn:E; [apply qltb_lt in E|apply qltb_ge in E]; repeat split; auto; lra. Qed.
Lemma minmax_ok rest i : forall mn mx, (forall p, In p rest -> i < length (fst p)) ->
  exists lo hi, for_in rest (fun x acc => let! v := objective_of x i in Ok (std_min (fst acc) v, std_max (snd acc) v)) (mn, mx) = Ok (lo, hi) /\
    (lo <= mn)%Q /\ (mx <= hi)%Q /\ (forall p x, In p rest -> nth_error (fst p) i = Some x -> (lo <= x <= hi)%Q) /\
    (lo = mn \/ exists p, In p rest /\ nth_error (fst p) i = Some lo) /\ (hi = mx \/ exists p, In p rest /\ nth_error (fst p) i = Some hi).
Proof.
  induction rest as [|x rest IH]; intros mn mx H.
  - exists mn, mx. cbn. repeat split; auto; try lra; contradiction.
  - cbn [for_in fst snd]. unfold objective_of at 1. assert (Hx : i < length (fst x)) by (apply H; left; auto).
    destruct (nth_error (fst x) i) as [v|] eqn:E; [|apply nth_error_None in E; lia]. cbn [of_opt rbind].
    destruct (IH (std_min mn v) (std_max mx v)) as (lo & hi & E' & A & B & C & D & F); [intros; apply H; right; auto|].
    rewrite E'. exists lo, hi. destruct (std_min_spec mn v) as (m1 & m2 & m3). pose proof (std_max_l mx v). pose proof (std_max_r mx v).
    split; [auto|]. split; [lra|]. split; [lra|]. split; [|split].
    + intros p y [<-|Hp] Hy; [assert (y = v) as -> by congruence; split; lra|eauto].
    + destruct D as [->|(p & Hp & Ep)]; [|right; exists p; split; auto; right; auto].
      destruct m3 as [->| ->]; [auto|right; exists x; split; auto; left; auto].
    + destruct F as [->|(p & Hp & Ep)]; [|right; exists p; split; auto; right; auto].
      destruct (std_max_cases mx v) as [->| ->]; [auto|right; exists x; split; auto; left; auto].
Qed.
Lemma setup_one_ok pop i : pop <> [] -> (forall p, In p pop -> i < length (fst p)) -> exists b, setup_one pop i = Ok b /\ spanned_bound pop i b.
Proof.
  intros Hne H. destruct pop as [|x rest]; [congruence|]. cbn [setup_one]. unfold objective_of at 1. unfold minmax. assert (Hx : i < length (fst x)) by (apply H; left; auto).
  destruct (nth_error (fst x) i) as [v|] eqn:E; [|apply nth_error_None in E; lia]. cbn [of_opt rbind].
  destruct (minmax_ok rest i v v) as (lo & hi & E' & A & B & C & D & F); [intros; apply H; right; auto|]. rewrite E'. cbn [rbind].
  eexists. split; [reflexivity|]. exists lo, hi. split; [|split; [|split; [|split]]].
  - destruct D as [->|(p & Hp & Ep)]; [exists x|exists p]; split; auto; [left|right]; auto.
  - destruct F as [->|(p & Hp & Ep)]; [exists x|exists p]; split; auto; [left|right]; auto.
  - intros p y [<-|Hp] Hy; [assert (y = v) as -> by congruence; split; lra|eauto].
  - intros Hlt. unfold make_bound. destruct (Qeq_bool lo hi) eqn:Eq; [apply Qeq_bool_eq in Eq; lra|]. cbn. split; reflexivity.
  - intros Heq. unfold make_bound. apply Qeq_bool_iff in Heq as Eq. rewrite Eq. cbn [fst snd]. unfold tiny. split; [reflexivity|]. rewrite Heq. lra.
Qed.
Lemma setup_ok nobj pop : pop <> [] -> (forall p, In p pop -> length (fst p) = nobj) -> exists bs, setup nobj pop = Ok bs /\ spanned_bounds nobj pop bs.
Proof.
  intros Hne H. unfold setup.
  assert (G : forall m k acc, k + m = nobj -> length acc = k -> (forall i b, nth_error acc i = Some b -> spanned_bound pop i b) ->
    exists bs, for_in (seq k m) (fun i acc => let! b := setup_one pop i in Ok (acc ++ [b])) acc = Ok bs /\ spanned_bounds nobj pop bs).
  { induction m as [|m IH]; intros k acc Hk La Ha; cbn [seq for_in].
    - exists acc. split; auto. split; auto. lia.
    - destruct (setup_one_ok pop k Hne) as (b & Eb & Sb); [intros p Hp; rewrite (H p Hp); lia|]. rewrite Eb. cbn [rbind].
      apply IH; [lia|rewrite app_length; cbn; lia|]. intros i c Hi. destruct (Nat.lt_ge_cases i (length acc)) as [Hlt|Hge].
      + rewrite nth_error_app1 in Hi by auto. auto.
      + rewrite nth_error_app2 in Hi by auto. destruct (i - length acc) as [|q] eqn:Eq; cbn in Hi; [|destruct q; discriminate]. injection Hi as <-.
        assert (i = k) as -> by lia. auto. }
  apply (G nobj 0 []); auto. intros [|i] b Hi; discriminate.
Qed.
Lemma spanned_inside nobj pop bs : spanned_bounds nobj pop bs -> (forall p, In p pop -> length (fst p) = nobj) -> forall p, In p pop -> inside bs (fst p).
Proof.
  intros [L Hb] Hl p Hp. split; [rewrite Hl; auto|]. intros i b x Eb Ex. destruct (Hb i b Eb) as (lo & hi & _ & _ & C & D & E). specialize (C p x Hp Ex).
  destruct (Qlt_le_dec lo hi) as [Hlt|Hge].
  - destruct (D Hlt) as [-> ->]. split; [split|]; lra.
  - assert (lo == hi)%Q as Heq by lra. destruct (E Heq) as [-> ->]. split; [split|]; lra.
Qed.

(** ** the matrix of indicators *)
Definition square (n : nat) (m : list (list Q)) : Prop := length m = n /\ Forall (fun r => length r = n) m.
Lemma resize_to_length {A} (d : A) n : forall l, length (resize_to d n l) = n.
Proof. induction n as [|n IH]; intros [|x l]; cbn; auto. Qed.
Lemma resize_square m values n : square m values -> exists k, n <= k /\ square k (resize_matrix values n).
Proof.
  intros [L F]. unfold resize_matrix. destruct (Nat.ltb_spec (length values) n) as [Hlt|Hge].
  - exists n. split; auto. split; [rewrite map_length, resize_to_length; auto|]. rewrite Forall_map. apply Forall_forall. intros r _. apply resize_to_length.
  - exists m. split; [lia|]. split; auto.
Qed.
Definition entry_is (m : list (list Q)) (i j : nat) (v : Q) : Prop := exists row, nth_error m i = Some row /\ nth_error row j = Some v.
Lemma write_ok k m i j v : square k m -> i < k -> j < k -> exists m', write m i j v = Ok m' /\ square k m' /\ entry_is m' i j v /\
  (forall a b w, (a, b) <> (i, j) -> entry_is m a b w -> entry_is m' a b w).
Proof.
  intros [L F] Hi Hj. unfold write. destruct (nth_error m i) as [row|] eqn:E; [|apply nth_error_None in E; lia]. cbn [of_opt rbind].
  assert (Lr : length row = k) by (rewrite Forall_forall in F; apply F; eapply nth_error_In; eauto).
  rewrite (upd_set row j v) by lia. cbn [of_opt rbind].
  rewrite upd_set by lia. cbn [of_opt].
  eexists. split; [reflexivity|]. split; [|split].
  - split; [rewrite set_length; auto|]. apply Forall_forall. intros r Hr. apply In_nth_error in Hr as (a & Ha). destruct (Nat.eq_dec a i) as [->|Hne].
    + rewrite nth_error_set_eq in Ha by lia. injection Ha as <-. rewrite set_length. auto.
    + rewrite nth_error_set_neq in Ha by auto. rewrite Forall_forall in F. apply F. eapply nth_error_In; eauto.
  - exists (set row j v). split; [apply nth_error_set_eq; lia|apply nth_error_set_eq; lia].
  - intros a b w Hne (r & Ra & Rb). destruct (Nat.eq_dec a i) as [->|Ha].
    + assert (r = row) as -> by congruence. exists (set row j v). split; [apply nth_error_set_eq; lia|]. rewrite nth_error_set_neq; [auto|]. intros ->. auto.
    + exists r. split; auto. rewrite nth_error_set_neq; auto.
Qed.

Section Fitness.
Variable metric : list bound -> vec -> vec -> res Q.
Variable h : Q -> Q.
Variable ind : list bound -> vec -> vec -> Q.

Section Pop.
Variable bs : list bound.
Variable pop : list indiv.
Hypothesis metric_ok : forall p q, In p pop -> In q pop -> metric bs (fst p) (fst q) = Ok (ind bs (fst p) (fst q)).
Notation n := (length pop).
Definition good_entry (vs : list (list Q)) (i j : nat) : Prop :=
  i = j \/ exists p q, nth_error pop i = Some p /\ nth_error pop j = Some q /\ entry_is vs i j (ind bs (fst p) (fst q)).
Notation inner i := (fun j vs => if i =? j then Ok vs
      else let! x := of_opt (nth_error pop i) in let! y := of_opt (nth_error pop j) in let! v := metric bs (fst x) (fst y) in write vs i j v).
Lemma inner_fill k i : n <= k -> i < n -> forall m j vs, j + m = n -> square k vs -> (forall b, b < j -> good_entry vs i b) ->
  exists vs', for_in (seq j m) (inner i) vs = Ok vs' /\ square k vs' /\ (forall b, b < n -> good_entry vs' i b) /\ (forall a b, a <> i -> good_entry vs a b -> good_entry vs' a b).
Proof.
  intros Hk Hi. induction m as [|m IH]; intros j vs Hj Hsq Hdone; cbn [seq for_in].
  - exists vs. split; auto. split; auto. split; auto. intros b Hb. apply Hdone. lia.
  - destruct (Nat.eqb_spec i j) as [->|Hne]; cbn [rbind].
    + apply IH; [lia|auto|]. intros b Hb. destruct (Nat.eq_dec b j) as [->|]; [left; auto|]. apply Hdone. lia.
    + destruct (nth_error pop i) as [p|] eqn:Ep; [|apply nth_error_None in Ep; lia]. destruct (nth_error pop j) as [q|] eqn:Eq; [|apply nth_error_None in Eq; lia].
      cbn [of_opt rbind]. rewrite metric_ok by (eapply nth_error_In; eauto). cbn [rbind].
      destruct (write_ok k vs i j (ind bs (fst p) (fst q)) Hsq ltac:(lia) ltac:(lia)) as (vs1 & E1 & Sq1 & En & Keep). rewrite E1. cbn [rbind].
      assert (K : forall a b, (a, b) <> (i, j) -> good_entry vs a b -> good_entry vs1 a b).
      { intros a b Hab [->|(p' & q' & A & B & C)]; [left; auto|right; exists p', q'; auto]. }
      destruct (IH (S j) vs1) as (vs' & E & Sq' & D & O); [lia|auto| |].
      * intros b Hb. destruct (Nat.eq_dec b j) as [->|Hbj]; [right; exists p, q; auto|]. apply K; [congruence|apply Hdone; lia].
      * exists vs'. split; [auto|]. split; [auto|]. split; [auto|]. intros a b Ha Hg. apply O; auto. apply K; auto. congruence.
Qed.
Lemma compute_values_ok m values : square m values -> exists k vs, compute_values metric bs pop values = Ok vs /\ n <= k /\ square k vs /\ forall i j, i < n -> j < n -> good_entry vs i j.
Proof.
  intros Hsq. destruct (resize_square m values n Hsq) as (k & Hk & Hr). unfold compute_values. exists k.
  assert (G : forall c i vs, i + c = n -> square k vs -> (forall a b, a < i -> b < n -> good_entry vs a b) ->
    exists vs', for_in (seq i c) (fun i vs => for_in (seq 0 n) (inner i) vs) vs = Ok vs' /\ n <= k /\ square k vs' /\ forall a b, a < n -> b < n -> good_entry vs' a b).
  { induction c as [|c IH]; intros i vs Hc Hs Hd; cbn [seq for_in].
    - exists vs. repeat split; try apply Hs; auto. intros a b Ha Hb. apply Hd; lia.
    - destruct (inner_fill k i Hk ltac:(lia) n 0 vs) as (vs1 & E1 & Sq1 & D & O); [lia|auto|intros; lia|]. rewrite E1. cbn [rbind]. apply IH; [lia|auto|].
      intros a b Ha Hb. destruct (Nat.eq_dec a i) as [->|]; [apply D; auto|apply O; auto]. apply Hd; lia. }
  destruct (G n 0 (resize_matrix values n)) as (vs & E); [lia|auto|intros; lia|]. exists vs. auto.
Qed.

(** ** fitnesses *)
Lemma filter_all {A} (f : A -> bool) : forall l, (forall x, In x l -> f x = true) -> filter f l = l.
Proof. induction l as [|x l IH]; intros H; cbn; auto. rewrite H by (left; auto). f_equal. apply IH. intros; apply H; right; auto. Qed.
Definition others (idx : nat) : list nat := filter (fun i => negb (i =? idx)) (seq 0 n).
Definition raw (i : nat) : vec := fst (nth i pop ([], 0%Q)).
Lemma raw_nth i p : nth_error pop i = Some p -> raw i = fst p.
Proof. intros E. unfold raw. rewrite (nth_error_nth _ _ _ E). auto. Qed.
Lemma compute_fitness_ok vs idx : idx < n -> (forall i j, i < n -> j < n -> good_entry vs i j) ->
  exists f, compute_fitness h vs n idx = Ok f /\ (f == - qsum (others idx) (fun i => h (ind bs (raw i) (raw idx))))%Q.
Proof.
  intros Hi Hg. unfold compute_fitness, others.
  assert (G : forall c a acc, a + c = n -> exists f, for_in (seq a c) (fun i result => if i =? idx then Ok result else let! row := of_opt (nth_error vs i) in let! v := of_opt (nth_error row idx) in Ok (result - h v)%Q) acc = Ok f /\
    (f == acc - qsum (filter (fun i => negb (i =? idx)) (seq a c)) (fun i => h (ind bs (raw i) (raw idx))))%Q).
  { induction c as [|c IH]; intros a acc Hc; cbn [seq for_in filter].
    - exists acc. split; auto. unfold qsum. cbn. lra.
    - destruct (Nat.eqb_spec a idx) as [->|Hne]; cbn [rbind negb]; [apply IH; lia|].
      destruct (Hg a idx ltac:(lia) Hi) as [->|(p & q & A & B & row & R1 & R2)]; [congruence|]. rewrite R1. cbn [of_opt rbind]. rewrite R2. cbn [of_opt rbind].
      destruct (IH (S a) (acc - h (ind bs (fst p) (fst q)))%Q ltac:(lia)) as (f & E & Ef). exists f. split; auto. rewrite Ef, qsum_cons, (raw_nth _ _ A), (raw_nth _ _ B). lra. }
  destruct (G n 0 0%Q ltac:(lia)) as (f & E & Ef). exists f. split; auto. rewrite Ef. lra.
Qed.
Lemma set_fitnesses_ok vs : (forall i j, i < n -> j < n -> good_entry vs i j) ->
  exists p', set_fitnesses h vs pop = Ok p' /\ map fst p' = map fst pop /\
    forall i x f, nth_error p' i = Some (x, f) -> (f == - qsum (others i) (fun i' => h (ind bs (raw i') (raw i))))%Q.
Proof.
  intros Hg. unfold set_fitnesses.
  assert (G : forall c a p, a + c = n -> map fst p = map fst pop -> (forall i x f, i < a -> nth_error p i = Some (x, f) -> (f == - qsum (others i) (fun i' => h (ind bs (raw i') (raw i))))%Q) ->
    exists p', for_in (seq a c) (fun i p => let! f := compute_fitness h vs n i in let! x := of_opt (nth_error p i) in of_opt (upd p i (fst x, f))) p = Ok p' /\ map fst p' = map fst pop /\
    forall i x f, nth_error p' i = Some (x, f) -> (f == - qsum (others i) (fun i' => h (ind bs (raw i') (raw i))))%Q).
  { induction c as [|c IH]; intros a p Hc Hm Hd; cbn [seq for_in].
    - exists p. split; auto. split; auto. intros i x f Hf. apply (Hd i x f); auto. assert (i < length p) by (apply nth_error_Some; congruence).
      apply (f_equal (@length _)) in Hm. rewrite !map_length in Hm. lia.
    - assert (Lp : length p = n) by (apply (f_equal (@length _)) in Hm; rewrite !map_length in Hm; auto).
      destruct (compute_fitness_ok vs a ltac:(lia) Hg) as (f & E & Ef). rewrite E. cbn [rbind].
      destruct (nth_error p a) as [x|] eqn:Ex; [|apply nth_error_None in Ex; lia]. cbn [of_opt rbind].
      rewrite upd_set by lia. cbn [of_opt rbind]. apply IH; [lia| |].
      + rewrite <- Hm. apply nth_error_ext. intros j. rewrite !nth_error_map. destruct (Nat.eq_dec j a) as [->|]; [rewrite nth_error_set_eq by lia; rewrite Ex; auto|rewrite nth_error_set_neq; auto].
      + intros i y g Hi. destruct (Nat.eq_dec i a) as [->|].
        * rewrite nth_error_set_eq by lia. intros [= <- <-]. auto.
        * rewrite nth_error_set_neq by auto. apply Hd. lia. }
  apply (G n 0 pop); [lia|auto|intros; lia].
Qed.
Lemma others_split before x after : pop = before ++ x :: after -> forall f : vec -> Q,
  (qsum (others (length before)) (fun i => f (raw i)) == qsum (before ++ after) (fun y => f (fst y)))%Q.
Proof.
  intros Hp f. unfold others.
  assert (Ls : seq 0 n = seq 0 (length before) ++ length before :: seq (S (length before)) (length after)).
  { rewrite Hp, app_length. cbn [length]. replace (length before + S (length after)) with (length before + (1 + length after)) by lia. rewrite seq_app. auto. }
  rewrite Ls, filter_app. cbn [filter]. rewrite Nat.eqb_refl. cbn [negb]. rewrite !qsum_app.
  assert (F1 : filter (fun i => negb (i =? length before)) (seq 0 (length before)) = seq 0 (length before)).
  { apply filter_all. intros i Hi. apply in_seq in Hi. destruct (Nat.eqb_spec i (length before)); auto. lia. }
  assert (F2 : filter (fun i => negb (i =? length before)) (seq (S (length before)) (length after)) = seq (S (length before)) (length after)).
  { apply filter_all. intros i Hi. apply in_seq in Hi. destruct (Nat.eqb_spec i (length before)); auto. lia. }
  rewrite F1, F2.
  assert (Q : forall l pre post, pop = pre ++ l ++ post -> (qsum (seq (length pre) (length l)) (fun i => f (raw i)) == qsum l (fun y => f (fst y)))%Q).
  { induction l as [|y l IH]; intros pre post Hl; cbn [length seq]; [reflexivity|]. rewrite !qsum_cons.
    assert (E : raw (length pre) = fst y) by (apply raw_nth; rewrite Hl, nth_error_app2, Nat.sub_diag by lia; auto). rewrite E.
    specialize (IH (pre ++ [y]) post). rewrite app_length in IH. cbn [length] in IH. replace (length pre + 1) with (S (length pre)) in IH by lia. rewrite IH; [reflexivity|]. rewrite Hl, <- app_assoc. auto. }
  rewrite (Q before [] (x :: after)) by auto. specialize (Q after (before ++ [x]) []). rewrite app_length in Q. cbn [length] in Q. replace (length before + 1) with (S (length before)) in Q by lia.
  rewrite Q by (rewrite app_nil_r, <- app_assoc; auto). reflexivity.
Qed.
End Pop.
Lemma split_fst {A B} : forall (p q : list (A * B)) before x f after, p = before ++ (x, f) :: after -> map fst p = map fst q ->
  exists before' y after', q = before' ++ (x, y) :: after' /\ map fst before' = map fst before /\ map fst after' = map fst after.
Proof.
  intros p q before x f after -> Hm. rewrite map_app in Hm. cbn in Hm. symmetry in Hm. apply map_eq_app in Hm as (l1 & l2 & -> & H1 & H2).
  destruct l2 as [|[x' y] l2]; [discriminate|]. cbn in H2. injection H2 as -> H2. exists l1, y, l2. auto.
Qed.
Lemma qsum_fst (f : vec -> Q) : forall l l' : list indiv, map fst l = map fst l' -> qsum l (fun y => f (fst y)) = qsum l' (fun y => f (fst y)).
Proof. intros l l' H. rewrite <- !(qsum_map fst f). congruence. Qed.
Theorem assign_ok nobj pop m values :
  pop <> [] -> (forall p, In p pop -> length (fst p) = nobj) -> square m values ->
  (forall bs, spanned_bounds nobj pop bs -> forall p q, In p pop -> In q pop -> metric bs (fst p) (fst q) = Ok (ind bs (fst p) (fst q))) ->
  exists p bs vs k, assign metric h nobj pop values = Ok (p, bs, vs) /\ map fst p = map fst pop /\ spanned_bounds nobj pop bs /\ square k vs /\ indicator_fitness h (ind bs) p.
Proof.
  intros Hne Hl Hsq Hm. destruct (setup_ok nobj pop Hne Hl) as (bs & Eb & Sb). specialize (Hm bs Sb).
  destruct (compute_values_ok bs pop Hm m values Hsq) as (k & vs & Ev & Hk & Sq & Hg). destruct (set_fitnesses_ok bs pop vs Hg) as (p & Ep & Hp & Hf).
  exists p, bs, vs, k. unfold assign. rewrite Eb. cbn [rbind]. rewrite Ev. cbn [rbind]. rewrite Ep. cbn [rbind]. repeat split; auto; try apply Sq; try apply Sb.
  intros before x f after E. specialize (Hf (length before) x f). rewrite E, nth_error_app2, Nat.sub_diag in Hf by lia. specialize (Hf eq_refl). rewrite Hf.
  destruct (split_fst _ _ _ _ _ _ E Hp) as (b' & y & a' & Epop & Hb & Ha). assert (Lb : length before = length b') by (rewrite <- (map_length fst), <- Hb, map_length; auto).
  rewrite Lb. rewrite (others_split pop b' (x, y) a' Epop (fun v => h (ind bs v (raw pop (length b'))))).
  assert (R : raw pop (length b') = x). { rewrite (raw_nth pop (length b') (x, y)); auto. rewrite Epop, nth_error_app2, Nat.sub_diag by lia. auto. }
  rewrite R. rewrite (qsum_fst (fun v => h (ind bs v x)) (b' ++ a') (before ++ after)); [reflexivity|]. rewrite !map_app. congruence.
Qed.

(** ** updates *)
Section Update.
Variable bs : list bound.
Lemma metrics_ok (g : vec -> res Q) (g' : vec -> Q) pop : (forall p, In p pop -> g (fst p) = Ok (g' (fst p))) -> metrics g pop = Ok (map (fun p => g' (fst p)) pop).
Proof.
  induction pop as [|x pop IH]; intros H; cbn [metrics map]; auto. rewrite H by (left; auto). cbn [rbind]. rewrite IH by (intros; apply H; right; auto). auto.
Qed.
Lemma add_to_all_map op (g' : vec -> Q) : forall pop, add_to_all h op pop (map (fun p => g' (fst p)) pop) = map (fun p => (fst p, op (snd p) (h (g' (fst p))))) pop.
Proof. induction pop as [|x pop IH]; cbn; auto. f_equal. auto. Qed.
Lemma qsum_perm {A} (f : A -> Q) : forall l l', Permutation l l' -> (qsum l f == qsum l' f)%Q.
Proof. induction 1; rewrite ?qsum_cons; [reflexivity|rewrite IHPermutation; reflexivity|lra|]. etransitivity; eauto. Qed.
Lemma fitness_perm_iff pop : indicator_fitness h (ind bs) pop <-> forall x f rest, Permutation pop ((x, f) :: rest) -> (f == - qsum rest (fun y => h (ind bs (fst y) x)))%Q.
Proof.
  split.
  - intros H x f rest P. assert (In (x, f) pop) as I by (rewrite P; left; auto). apply in_split in I as (b & a & E).
    rewrite (H b x f a E). rewrite (qsum_perm _ (b ++ a) rest); [reflexivity|]. apply (Permutation_cons_inv (a := (x, f))). rewrite <- P, E. apply Permutation_middle.
  - intros H b x f a E. apply H. rewrite E. symmetry. apply Permutation_middle.
Qed.
Lemma fitness_perm pop pop' : Permutation pop pop' -> indicator_fitness h (ind bs) pop -> indicator_fitness h (ind bs) pop'.
Proof. intros P H. apply fitness_perm_iff. intros x f rest P'. apply (proj1 (fitness_perm_iff pop) H). rewrite P. auto. Qed.
Theorem deleting_ok pop x f rest : indicator_fitness h (ind bs) pop -> Permutation pop ((x, f) :: rest) ->
  (forall p, In p rest -> metric bs x (fst p) = Ok (ind bs x (fst p))) ->
  exists rest', update_by_deleting metric h bs rest x = Ok rest' /\ map fst rest' = map fst rest /\ indicator_fitness h (ind bs) rest'.
Proof.
  intros Hf P Hm. unfold update_by_deleting. rewrite (metrics_ok _ (ind bs x)) by auto. cbn [rbind]. eexists. split; [reflexivity|].
  rewrite add_to_all_map. split; [rewrite map_map; apply map_ext; auto|].
  intros b y g a E. apply map_eq_app in E as (b0 & a0 & Er & Eb & Ea). destruct a0 as [|[y0 g0] a0]; [discriminate|]. cbn in Ea. injection Ea as -> Eg Ea. subst g.
  assert (P' : Permutation pop ((y, g0) :: (x, f) :: b0 ++ a0)) by (rewrite P, Er; rewrite <- Permutation_middle; apply perm_swap).
  pose proof (proj1 (fitness_perm_iff pop) Hf _ _ _ P') as Hg. rewrite qsum_cons in Hg. cbn [fst] in Hg. rewrite Hg.
  rewrite <- Ea, <- Eb, <- map_app, qsum_map. cbn [fst]. lra.
Qed.
Theorem adding_ok pop x : indicator_fitness h (ind bs) pop ->
  (forall p, In p pop -> metric bs x (fst p) = Ok (ind bs x (fst p)) /\ metric bs (fst p) x = Ok (ind bs (fst p) x)) ->
  exists pop' f, update_by_adding metric h bs pop x = Ok (pop', f) /\ map fst pop' = map fst pop /\
    forall b a, pop' = b ++ a -> indicator_fitness h (ind bs) (b ++ (x, f) :: a).
Proof.
  intros Hf Hm. unfold update_by_adding. rewrite (metrics_ok _ (ind bs x)) by (intros; apply Hm; auto). cbn [rbind].
  rewrite (metrics_ok _ (fun v => ind bs v x)) by (intros; apply Hm; auto). cbn [rbind]. eexists. eexists. split; [reflexivity|].
  rewrite add_to_all_map. split; [rewrite map_map; apply map_ext; auto|]. intros b a E.
  assert (Ff : forall l acc, (fold_left (fun r w => r - h w) (map (fun p : indiv => ind bs (fst p) x) l) acc == acc - qsum l (fun p => h (ind bs (fst p) x)))%Q).
  { induction l as [|p l IH]; intros acc; cbn [map fold_left]; [unfold qsum; cbn; lra|]. rewrite IH, qsum_cons. lra. }
  set (f := fold_left _ _ _). apply (fitness_perm ((x, f) :: b ++ a)); [apply Permutation_middle|]. rewrite <- E.
  intros b1 y g a1 E1. destruct b1 as [|p1 b1].
  - cbn in E1. injection E1 as -> <- <-. cbn [app]. unfold f. rewrite Ff, qsum_map. cbn [fst]. lra.
  - cbn [app] in E1. injection E1 as <- E1. apply map_eq_app in E1 as (b0 & a0 & Er & Eb & Ea). destruct a0 as [|[y0 g0] a0]; [discriminate|]. cbn in Ea. injection Ea as -> Eg Ea. subst g.
    rewrite (Hf b0 y g0 a0 Er). cbn [app]. rewrite qsum_cons, <- Ea, <- Eb, <- map_app, qsum_map. cbn [fst]. lra.
Qed.
End Update.

(** ** dominance *)
Theorem dominance_ok bs pop dirs x1 f1 x2 f2 : weight h -> indicator_fitness h (ind bs) pop -> In (x1, f1) pop -> In (x2, f2) pop -> dominates dirs x1 x2 ->
  (forall v, ~ dominates dirs v v) ->
  (ind bs x1 x2 < ind bs x2 x1)%Q -> (forall y, In y pop -> (ind bs (fst y) x2 <= ind bs (fst y) x1)%Q) -> (f2 < f1)%Q.
Proof.
  intros (Hpos & Hdec & Heq) Hf H1 H2 Hd Hirr Hlt Hle. apply in_split in H1 as (b & a & E).
  assert (Hin : In (x2, f2) (b ++ a)). { rewrite E in H2. apply in_app_or in H2 as [H2|[H2|H2]]; [apply in_or_app; auto| |apply in_or_app; auto]. injection H2 as -> _. destruct (Hirr _ Hd). }
  apply in_split in Hin as (c & d & Ec).
  pose proof (Hf b x1 f1 a E) as F1. rewrite Ec in F1.
  assert (P2 : Permutation pop ((x2, f2) :: (x1, f1) :: c ++ d)). { rewrite E, <- Permutation_middle, Ec, <- Permutation_middle. apply perm_swap. }
  pose proof (proj1 (fitness_perm_iff bs pop) Hf _ _ _ P2) as F2. rewrite qsum_cons in F2. cbn [fst] in F2.
  rewrite (qsum_perm _ (c ++ (x2, f2) :: d) ((x2, f2) :: c ++ d)) in F1 by (symmetry; apply Permutation_middle). rewrite qsum_cons in F1. cbn [fst] in F1.
  assert (Hsum : (qsum (c ++ d) (fun y => h (ind bs (fst y) x1)) <= qsum (c ++ d) (fun y => h (ind bs (fst y) x2)))%Q).
  { assert (Hin : forall y, In y (c ++ d) -> In y pop) by (intros y Hy; rewrite P2; right; right; auto). clear -Hin Hle Hdec Heq.
    induction (c ++ d) as [|y l IH]; [unfold qsum; cbn; lra|]. rewrite !qsum_cons. specialize (IH (fun z Hz => Hin z (or_intror Hz))).
    specialize (Hle y (Hin y (or_introl eq_refl))). apply Qle_lteq in Hle as [Hl|Hl]; [apply Hdec in Hl|apply Heq in Hl]; lra. }
  apply Hdec in Hlt. lra.
Qed.
End Fitness.
