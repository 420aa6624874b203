From Coq Require Import List Bool Arith QArith Lia Lqa.
From Verif Require Import Lib Outcome BoundsModel BoundsProofs ParetoModel ParetoSpec ParetoProofs IndModel IndProofs MetModel MetSpec.
From Coq Require Import List.
Import ListNotations.
Local Open Scope Q_scope.

(** ** the loops *)
Lemma each_of_ok {A B} (f : A -> res B) (P : A -> B -> Prop) l : (forall x, In x l -> exists y, f x = Ok y /\ P x y) ->
  exists r, each_of f l = Ok r /\ Forall2 P l r.
Proof.
  induction l as [|x l IH]; intros H; [exists []; split; [reflexivity|constructor]|]. destruct (H x (or_introl eq_refl)) as (y & E & Hy).
  destruct IH as (r & Er & Hr); [intros; apply H; right; auto|]. exists (y :: r). cbn [each_of]. rewrite E. cbn [rbind]. rewrite Er. split; [reflexivity|constructor; auto].
Qed.
Lemma each_of_throw {A B} (f : A -> res B) l : (forall x, In x l -> f x = Throw \/ exists y, f x = Ok y) ->
  (each_of f l = Throw <-> exists x, In x l /\ f x = Throw) /\ (each_of f l = Throw \/ exists r, each_of f l = Ok r).
Proof.
  induction l as [|x l IH]; intros H; [split; [split; [discriminate|intros (x & [] & _)]|right; eexists; reflexivity]|].
  destruct IH as [IH IH']; [intros; apply H; right; auto|]. cbn [each_of]. destruct (H x (or_introl eq_refl)) as [E|(y & E)]; rewrite E; cbn [rbind].
  - split; [split; [intros _; exists x; split; [left; reflexivity|exact E]|reflexivity]|left; reflexivity].
  - destruct IH' as [E'|(r & E')]; rewrite E' in *; cbn [rbind].
    + split; [split; [|reflexivity]|left; reflexivity]. intros _. destruct (proj1 IH eq_refl) as (z & Hz & Ez). exists z. split; [right; exact Hz|exact Ez].
    + split; [|right; eexists; reflexivity]. split; [discriminate|]. intros (z & [->|Hz] & Ez); [congruence|]. assert (X : @Ok (list B) r = Throw) by (apply IH; eauto). discriminate.
Qed.
Lemma greatest_some l : l <> [] -> exists m, greatest_of (map Some l) = Ok (Some m) /\ In m l /\ forall x, In x l -> x <= m.
Proof.
  destruct l as [|x l]; [congruence|]. intros _. cbn [map greatest_of].
  assert (G : forall l x, exists m, fold_left (fun m t => if lt_nan m t then t else m) (map Some l) (Some x) = Some m /\ In m (x :: l) /\ forall y, In y (x :: l) -> y <= m).
  { clear. induction l as [|y l IH]; intros x; cbn [map fold_left]. { exists x. repeat split; [left; reflexivity|]. intros y [->|[]]. lra. }
    cbn [lt_nan]. destruct (qltb x y) eqn:E.
    - destruct (IH y) as (m & -> & Hm & Hb). exists m. apply qltb_lt in E. pose proof (Hb y (or_introl eq_refl)). repeat split; [right; exact Hm|]. intros z [->|Hz]; [lra|apply Hb; exact Hz].
    - destruct (IH x) as (m & -> & Hm & Hb). exists m. apply qltb_ge in E. pose proof (Hb x (or_introl eq_refl)). repeat split; [destruct Hm; [left|right; right]; auto|]. intros z [->|[->|Hz]]; [lra|lra|apply Hb; right; exact Hz]. }
  destruct (G l x) as (m & E & Hm & Hb). exists m. rewrite E. auto.
Qed.
Lemma least_some l : l <> [] -> exists m, least_of (map Some l) = Ok (Some m) /\ In m l /\ forall x, In x l -> m <= x.
Proof.
  destruct l as [|x l]; [congruence|]. intros _. cbn [map least_of].
  assert (G : forall l x, exists m, fold_left (fun m t => if lt_nan t m then t else m) (map Some l) (Some x) = Some m /\ In m (x :: l) /\ forall y, In y (x :: l) -> m <= y).
  { clear. induction l as [|y l IH]; intros x; cbn [map fold_left]. { exists x. repeat split; [left; reflexivity|]. intros y [->|[]]. lra. }
    cbn [lt_nan]. destruct (qltb y x) eqn:E.
    - destruct (IH y) as (m & -> & Hm & Hb). exists m. apply qltb_lt in E. pose proof (Hb y (or_introl eq_refl)). repeat split; [right; exact Hm|]. intros z [->|Hz]; [lra|apply Hb; exact Hz].
    - destruct (IH x) as (m & -> & Hm & Hb). exists m. apply qltb_ge in E. pose proof (Hb x (or_introl eq_refl)). repeat split; [destruct Hm; [left|right; right]; auto|]. intros z [->|[->|Hz]]; [lra|lra|apply Hb; right; exact Hz]. }
  destruct (G l x) as (m & E & Hm & Hb). exists m. rewrite E. auto.
Qed.
(** every value computed from a list *)
Lemma each_of_values {A} (f : A -> res (option Q)) (P : A -> Q -> Prop) l : (forall x, In x l -> exists y, f x = Ok (Some y) /\ P x y) ->
  exists r, each_of f l = Ok (map Some r) /\ Forall2 P l r.
Proof.
  intros H. destruct (each_of_ok f (fun x o => exists y, o = Some y /\ P x y) l) as (r & E & F).
  { intros x Hx. destruct (H x Hx) as (y & Ey & Py). exists (Some y). split; [exact Ey|]. exists y. auto. }
  rewrite E. clear E H. induction F as [|x o l r (y & -> & Py) F (r' & E & F')].
  - exists []. split; [reflexivity|constructor].
  - inversion E; subst. exists (y :: r'). split; [reflexivity|constructor; auto].
Qed.
Lemma f2_in_l {A B} (P : A -> B -> Prop) l r x : Forall2 P l r -> In x l -> exists y, In y r /\ P x y.
Proof. intros F. induction F as [|a b l r Hab F IH]; intros H; [destruct H|]. destruct H as [->|H]; [exists b; split; [left|]; auto|]. destruct (IH H) as (y & Hy & Py). exists y. split; [right|]; auto. Qed.
Lemma f2_in_r {A B} (P : A -> B -> Prop) l r y : Forall2 P l r -> In y r -> exists x, In x l /\ P x y.
Proof. intros F. induction F as [|a b l r Hab F IH]; intros H; [destruct H|]. destruct H as [->|H]; [exists a; split; [left|]; auto|]. destruct (IH H) as (x & Hx & Px). exists x. split; [right|]; auto. Qed.
Lemma f2_nonempty {A B} (P : A -> B -> Prop) l r : Forall2 P l r -> l <> [] -> r <> [].
Proof. intros F. destruct F; congruence. Qed.

Section Metric.
Variable eps : list Q -> list Q -> res (list (option Q)).
Variable P : list Q -> list Q -> Q -> Prop.
Variables s1 s2 : list (list Q).
Hypothesis eps_ok : forall a b, In a s1 -> In b s2 -> exists es, eps a b = Ok (map Some es) /\ es <> [] /\ forall e, P a b e <-> forall x, In x es -> x <= e.
Hypothesis ne1 : s1 <> [].
Hypothesis ne2 : s2 <> [].
Lemma set_metric_least : exists e, set_metric eps s1 s2 = Ok (Some e) /\ least (fun e => forall b, In b s2 -> exists a, In a s1 /\ P a b e) e.
Proof.
  unfold set_metric.
  destruct (each_of_values (fun b => let! l := each_of (fun a => let! es := eps a b in greatest_of es) s1 in least_of l)
    (fun b e => least (fun e => exists a, In a s1 /\ P a b e) e) s2) as (r & E & F).
  { intros b Hb. destruct (each_of_values (fun a => let! es := eps a b in greatest_of es) (fun a e => In a s1 /\ least (P a b) e) s1) as (r & E & F).
    { intros a Ha. destruct (eps_ok a b Ha Hb) as (es & E & N & H). rewrite E. cbn [rbind]. destruct (greatest_some es N) as (m & Em & Hm & Hmax). exists m.
      split; [exact Em|]. split; [exact Ha|]. split; [apply H; exact Hmax|]. intros e' He'. apply (proj1 (H e') He' m Hm). }
    rewrite E. cbn [rbind]. destruct (least_some r (f2_nonempty _ _ _ F ne1)) as (m & Em & Hm & Hmin). exists m. split; [exact Em|].
    destruct (f2_in_r _ _ _ _ F Hm) as (a & Ha & _ & Pa & _). split; [exists a; auto|].
    intros e' (a' & Ha' & Pe'). destruct (f2_in_l _ _ _ _ F Ha') as (y & Hy & _ & _ & Ly). specialize (Ly e' Pe'). specialize (Hmin y Hy). lra. }
  rewrite E. cbn [rbind]. destruct (greatest_some r (f2_nonempty _ _ _ F ne2)) as (m & Em & Hm & Hmax). exists m. split; [exact Em|]. split.
  - intros b Hb. destruct (f2_in_l _ _ _ _ F Hb) as (y & Hy & (a & Ha & Pa) & _). exists a. split; [exact Ha|].
    destruct (eps_ok a b Ha Hb) as (es & _ & _ & H). apply H. intros x Hx. pose proof (proj1 (H y) Pa x Hx). specialize (Hmax y Hy). lra.
  - intros e' He'. destruct (f2_in_r _ _ _ _ F Hm) as (b & Hb & _ & Lb). apply Lb. destruct (He' b Hb) as (a & Ha & Pa). exists a. auto.
Qed.
End Metric.
Lemma least_unique P e e' : least P e -> least P e' -> e == e'.
Proof. intros [H1 H2] [H3 H4]. specialize (H2 e' H3). specialize (H4 e H1). lra. Qed.
Lemma least_ext (P R : Q -> Prop) e : (forall x, P x <-> R x) -> least P e -> least R e.
Proof. intros H [H1 H2]. split; [apply H; exact H1|]. intros e' He'. apply H2, H, He'. Qed.

(** ** the two kinds of epsilon *)
Lemma additive_ok : forall dirs bs v w, length bs = length dirs -> length v = length dirs -> length w = length dirs -> (forall b, In b bs -> ~ snd b == 0) ->
  exists es, additive dirs bs v w = Ok (map Some es) /\ length es = length dirs /\ forall e, covers_with (norm_of bs) dirs v w e <-> forall x, In x es -> x <= e.
Proof.
  induction dirs as [|d dirs IH]; intros [|b bs] [|x v] [|y w] L0 L1 L2 R; try discriminate; cbn [additive].
  - exists []. repeat split. { intros _ x []. } intros _. apply covers_nil.
  - cbn [length] in *. destruct (IH bs v w ltac:(lia) ltac:(lia) ltac:(lia)) as (es & E & L & H); [intros; apply R; right; auto|]. rewrite E. cbn [rbind].
    unfold additive1. destruct (Qeq_bool (snd b) 0) eqn:Eb; [apply Qeq_bool_iff in Eb; destruct (R b (or_introl eq_refl) Eb)|]. exists (epsilon1 d b x y :: es).
    split; [reflexivity|]. split; [cbn; lia|]. intros e. rewrite covers_cons, H. split.
    + intros [H1 H2] z [<-|Hz]; auto.
    + intros Hz. split; [apply Hz; left; reflexivity|]. intros z Hz'. apply Hz. right. exact Hz'.
Qed.
Definition covers_times (dirs : list bool) (v w : list Q) (e : Q) : Prop :=
  forall i d x y, objective dirs v w i d x y -> if d then x <= e * y else y <= e * x.
Lemma times_cons d dirs x v y w e : covers_times (d :: dirs) (x :: v) (y :: w) e <-> (if d then x <= e * y else y <= e * x) /\ covers_times dirs v w e.
Proof.
  unfold covers_times. split.
  - intros H. split; [apply (H 0%nat d x y); repeat split|]. intros i d' x' y' (H1 & H2 & H3). apply (H (S i)). repeat split; assumption.
  - intros [H1 H2] [|i] d' x' y' (E1 & E2 & E3); cbn in E1, E2, E3.
    + inversion E1; inversion E2; inversion E3; subst. exact H1.
    + apply (H2 i). repeat split; assumption.
Qed.
Lemma multiplicative_ok : forall dirs v w, length v = length dirs -> length w = length dirs -> (forall x, In x v -> 0 < x) -> (forall y, In y w -> 0 < y) ->
  exists es, multiplicative dirs v w = Ok (map Some es) /\ length es = length dirs /\ forall e, covers_times dirs v w e <-> forall x, In x es -> x <= e.
Proof.
  induction dirs as [|d dirs IH]; intros [|x v] [|y w] L1 L2 P1 P2; try discriminate; cbn [multiplicative].
  - exists []. repeat split. { intros _ x []. } intros _ i d x y (H & _). destruct i; discriminate.
  - cbn [length] in *. destruct (IH v w ltac:(lia) ltac:(lia)) as (es & E & L & H); [intros; apply P1; right; auto|intros; apply P2; right; auto|].
    pose proof (P1 x (or_introl eq_refl)) as Px. pose proof (P2 y (or_introl eq_refl)) as Py.
    destruct (Qle_bool (x * y) 0) eqn:E0.
    { apply Qle_bool_iff in E0. pose proof (Qmult_lt_0_compat x y Px Py). lra. }
    rewrite E. cbn [rbind]. exists ((if d then x / y else y / x) :: es). split; [reflexivity|]. split; [cbn; lia|]. intros e. rewrite times_cons, H.
    assert (G : (if d then x <= e * y else y <= e * x) <-> (if d then x / y else y / x) <= e).
    { destruct d; split; intros G; [apply Qle_shift_div_r; auto| |apply Qle_shift_div_r; auto|].
      - apply (Qmult_le_r _ _ y Py) in G. assert (X : x / y * y == x) by (field; lra). lra.
      - apply (Qmult_le_r _ _ x Px) in G. assert (X : y / x * x == y) by (field; lra). lra. }
    rewrite G. split.
    + intros [H1 H2] z [<-|Hz]; auto.
    + intros Hz. split; [apply Hz; left; reflexivity|]. intros z Hz'. apply Hz. right. exact Hz'.
Qed.
Lemma multiplicative_throw : forall dirs v w, length v = length dirs -> length w = length dirs ->
  (multiplicative dirs v w = Throw <-> exists i d x y, objective dirs v w i d x y /\ x * y <= 0) /\
  (multiplicative dirs v w = Throw \/ exists es, multiplicative dirs v w = Ok (map Some es) /\ length es = length dirs).
Proof.
  induction dirs as [|d dirs IH]; intros [|x v] [|y w] L1 L2; try discriminate; cbn [multiplicative].
  - split; [split; [discriminate|]|right; exists []; auto]. intros (i & d & x & y & (H & _) & _). destruct i; discriminate.
  - cbn [length] in *. destruct (IH v w ltac:(lia) ltac:(lia)) as [H1 H2]. destruct (Qle_bool (x * y) 0) eqn:E0.
    + apply Qle_bool_iff in E0. split; [|left; reflexivity]. split; [|reflexivity]. intros _. exists 0%nat, d, x, y. repeat split. exact E0.
    + assert (N : ~ x * y <= 0) by (intros G; apply Qle_bool_iff in G; congruence).
      destruct H2 as [E|(es & E & L)]; rewrite E in *; cbn [rbind].
      * split; [|left; reflexivity]. split; [|reflexivity]. intros _. destruct (proj1 H1 eq_refl) as (i & d' & x' & y' & (G1 & G2 & G3) & G). exists (S i), d', x', y'. repeat split; assumption.
      * split; [|right; exists (Some (if d then x / y else y / x) :: map Some es); exists ((if d then x / y else y / x) :: es); split; [reflexivity|cbn; lia]] || (split; [|right; exists ((if d then x / y else y / x) :: es); split; [reflexivity|cbn; lia]]).
        split; [discriminate|]. intros (i & d' & x' & y' & (G1 & G2 & G3) & G). destruct i as [|i]; cbn in G1, G2, G3.
        -- inversion G2; inversion G3; subst. contradiction.
        -- assert (X : @Ok (list (option Q)) (map Some es) = Throw) by (apply H1; exists i, d', x', y'; repeat split; assumption). discriminate.
Qed.
Lemma set_metric_throw dirs s1 s2 : dirs <> [] -> vectors_of (length dirs) s1 -> vectors_of (length dirs) s2 -> s1 <> [] -> s2 <> [] ->
  (multiplicative_metric dirs s1 s2 = Throw <-> exists a b i d x y, In a s1 /\ In b s2 /\ objective dirs a b i d x y /\ x * y <= 0).
Proof.
  intros Nd V1 V2 N1 N2. unfold multiplicative_metric, set_metric.
  set (g := fun b a => let! es := multiplicative dirs a b in greatest_of es).
  assert (Hg : forall a b, In a s1 -> In b s2 -> (g b a = Throw <-> exists i d x y, objective dirs a b i d x y /\ x * y <= 0) /\ (g b a = Throw \/ exists r, g b a = Ok (Some r))).
  { intros a b Ha Hb. destruct (multiplicative_throw dirs a b (V1 a Ha) (V2 b Hb)) as [H1 H2]. unfold g. destruct H2 as [E|(es & E & L)]; rewrite E in *; cbn [rbind]; [split; [split; [intros _; apply H1; reflexivity|reflexivity]|left; reflexivity]|].
    destruct es as [|e es]; [destruct dirs; [congruence|discriminate]|]. destruct (greatest_some (e :: es)) as (m & Em & _); [discriminate|]. rewrite Em. split; [|right; eexists; reflexivity].
    split; [discriminate|]. intros G. apply H1 in G. discriminate. }
  set (h := fun b => let! l := each_of (g b) s1 in least_of l).
  assert (Hh : forall b, In b s2 -> (h b = Throw <-> exists a, In a s1 /\ g b a = Throw) /\ (h b = Throw \/ exists r, h b = Ok (Some r))).
  { intros b Hb. assert (K : forall a, In a s1 -> g b a = Throw \/ exists y, g b a = Ok y) by (intros a Ha; destruct (proj2 (Hg a b Ha Hb)) as [E|(r & E)]; eauto).
    destruct (each_of_throw (g b) s1 K) as [T1 T2]. unfold h. destruct T2 as [E|(r & E)].
    - rewrite E in *. cbn [rbind]. split; [split; [intros _; apply T1; reflexivity|reflexivity]|left; reflexivity].
    - assert (AllOk : forall a, In a s1 -> exists y, g b a = Ok (Some y) /\ True).
      { intros a Ha. destruct (proj2 (Hg a b Ha Hb)) as [E'|(y & E')]; [|eauto]. assert (X : each_of (g b) s1 = Throw) by (apply T1; eauto). congruence. }
      destruct (each_of_values (g b) _ s1 AllOk) as (l & El & F). rewrite El. cbn [rbind]. destruct (least_some l (f2_nonempty _ _ _ F N1)) as (m & Em & _). rewrite Em.
      split; [|right; eexists; reflexivity]. split; [discriminate|]. intros G. apply T1 in G. congruence. }
  assert (K : forall b, In b s2 -> h b = Throw \/ exists y, h b = Ok y) by (intros b Hb; destruct (proj2 (Hh b Hb)) as [E|(r & E)]; eauto).
  destruct (each_of_throw h s2 K) as [T1 T2]. change (rbind (each_of h s2) greatest_of = Throw <-> exists a b i d x y, In a s1 /\ In b s2 /\ objective dirs a b i d x y /\ x * y <= 0).
  assert (R : (exists b, In b s2 /\ h b = Throw) <-> exists a b i d x y, In a s1 /\ In b s2 /\ objective dirs a b i d x y /\ x * y <= 0).
  { split.
    - intros (b & Hb & E). apply Hh in E as (a & Ha & E); [|exact Hb]. apply Hg in E as (i & d & x & y & O & L); auto. exists a, b, i, d, x, y. auto.
    - intros (a & b & i & d & x & y & Ha & Hb & O & L). exists b. split; [exact Hb|]. apply Hh; [exact Hb|]. exists a. split; [exact Ha|]. apply Hg; auto. exists i, d, x, y. auto. }
  rewrite <- R, <- T1. destruct T2 as [E|(r & E)]; rewrite E in *; cbn [rbind]; [split; reflexivity|]. split; [|discriminate].
  assert (AllOk : forall b, In b s2 -> exists y, h b = Ok (Some y) /\ True).
  { intros b Hb. destruct (proj2 (Hh b Hb)) as [E'|(y & E')]; [|eauto]. assert (X : @Ok (list (option Q)) r = Throw) by (apply T1; eauto). discriminate. }
  destruct (each_of_values h _ s2 AllOk) as (l & El & F). assert (r = map Some l) as -> by congruence. destruct (greatest_some l (f2_nonempty _ _ _ F N2)) as (m & Em & _). rewrite Em. discriminate.
Qed.

(** ** the bounds *)
Lemma fold_min_ok xs : forall x, (fold_left std_min xs x = x \/ In (fold_left std_min xs x) xs) /\ forall y, In y (x :: xs) -> fold_left std_min xs x <= y.
Proof.
  induction xs as [|z xs IH]; intros x; cbn [fold_left]. { split; [left; reflexivity|]. intros y [->|[]]. lra. }
  destruct (IH (std_min x z)) as [H1 H2]. assert (G : (std_min x z = x \/ std_min x z = z) /\ std_min x z <= x /\ std_min x z <= z).
  { unfold std_min. destruct (qltb z x) eqn:E; [apply qltb_lt in E|apply qltb_ge in E]; repeat split; auto; lra. }
  destruct G as (G1 & G2 & G3). pose proof (H2 _ (or_introl eq_refl)) as H0. split.
  - destruct H1 as [H1|H1]; [|right; right; exact H1]. rewrite H1. destruct G1 as [->| ->]; [left|right; left]; reflexivity.
  - intros y [->|[->|Hy]]; [lra|lra|]. apply H2. right. exact Hy.
Qed.
Lemma fold_max_ok xs : forall x, (fold_left std_max xs x = x \/ In (fold_left std_max xs x) xs) /\ forall y, In y (x :: xs) -> y <= fold_left std_max xs x.
Proof.
  induction xs as [|z xs IH]; intros x; cbn [fold_left]. { split; [left; reflexivity|]. intros y [->|[]]. lra. }
  destruct (IH (std_max x z)) as [H1 H2]. pose proof (std_max_l x z). pose proof (std_max_r x z).
  pose proof (H2 _ (or_introl eq_refl)) as H0'. split.
  - destruct H1 as [H1|H1]; [|right; right; exact H1]. rewrite H1. destruct (std_max_cases x z) as [->| ->]; [left|right; left]; reflexivity.
  - intros y [->|[->|Hy]]; [lra|lra|]. apply H2. right. exact Hy.
Qed.
Lemma column n i s : vectors_of n s -> (i < n)%nat -> exists xs, each_of (fun v => of_opt (nth_error v i)) s = Ok xs /\ Forall2 (fun v x => nth_error v i = Some x) s xs.
Proof.
  intros V Hi. apply each_of_ok. intros v Hv. destruct (nth_error v i) as [x|] eqn:E; [exists x; auto|]. apply nth_error_None in E. rewrite (V v Hv) in E. lia.
Qed.
Lemma bounds_ok n s1 s2 i : vectors_of n s1 -> vectors_of n s2 -> s1 <> [] -> (i < n)%nat ->
  exists mn mx, bounds_at s1 s2 i = Ok (mn, mx - mn) /\ spans (s1 ++ s2) i mn mx.
Proof.
  intros V1 V2 N Hi. destruct s1 as [|a s1]; [congruence|]. unfold bounds_at. cbn [hd_error tl of_opt rbind].
  destruct (nth_error a i) as [x|] eqn:E; [|apply nth_error_None in E; rewrite (V1 a (or_introl eq_refl)) in E; lia]. cbn [of_opt rbind].
  destruct (column n i (s1 ++ s2)) as (xs & Ex & F); [|exact Hi|].
  { intros v Hv. apply in_app_or in Hv as [Hv|Hv]; [apply V1; right; auto|apply V2; auto]. }
  rewrite Ex. cbn [rbind]. do 2 eexists. split; [reflexivity|].
  destruct (fold_min_ok xs x) as [M1 M2]. destruct (fold_max_ok xs x) as [K1 K2]. split; [|split].
  - destruct M1 as [->|M1]; [exists a; split; [left; reflexivity|exact E]|]. destruct (f2_in_r _ _ _ _ F M1) as (v & Hv & Ev). exists v. split; [right; exact Hv|exact Ev].
  - destruct K1 as [->|K1]; [exists a; split; [left; reflexivity|exact E]|]. destruct (f2_in_r _ _ _ _ F K1) as (v & Hv & Ev). exists v. split; [right; exact Hv|exact Ev].
  - intros v y [<-|Hv] Ey.
    + assert (y = x) as -> by congruence. split; [apply M2|apply K2]; left; reflexivity.
    + destruct (f2_in_l _ _ _ _ F Hv) as (z & Hz & Ez). assert (z = y) as -> by congruence. split; [apply M2|apply K2]; right; exact Hz.
Qed.
Lemma spans_unique s i mn mx mn' mx' : spans s i mn mx -> spans s i mn' mx' -> mn == mn' /\ mx == mx'.
Proof.
  intros ((v1 & H1 & E1) & (v2 & H2 & E2) & B) ((v3 & H3 & E3) & (v4 & H4 & E4) & B').
  pose proof (B _ _ H3 E3). pose proof (B _ _ H4 E4). pose proof (B' _ _ H1 E1). pose proof (B' _ _ H2 E2). lra.
Qed.
Lemma setup_ok n s1 s2 : vectors_of n s1 -> vectors_of n s2 -> s1 <> [] ->
  exists bs, setup n s1 s2 = Ok bs /\ length bs = n /\ forall i, (i < n)%nat -> exists mn mx, nth i bs (0, 1) = (mn, mx - mn) /\ spans (s1 ++ s2) i mn mx.
Proof.
  intros V1 V2 N. unfold setup. destruct (each_of_ok (bounds_at s1 s2) (fun i b => exists mn mx, b = (mn, mx - mn) /\ spans (s1 ++ s2) i mn mx) (seq 0 n)) as (bs & E & F).
  { intros i Hi. apply in_seq in Hi. destruct (bounds_ok n s1 s2 i V1 V2 N ltac:(lia)) as (mn & mx & Eb & Hs). eexists. split; [exact Eb|]. exists mn, mx. auto. }
  exists bs. split; [exact E|]. clear E.
  assert (G : forall (P : nat -> Q * Q -> Prop) k m l, Forall2 P (seq k m) l -> length l = m /\ forall i, (i < m)%nat -> P (k + i)%nat (nth i l (0, 1))).
  { clear. intros P k m. revert k. induction m as [|m IH]; intros k l F; cbn [seq] in F; inversion F; subst; [split; [reflexivity|lia]|].
    destruct (IH _ _ H3) as [L H]. split; [cbn; lia|]. intros [|i] Hi; [rewrite Nat.add_0_r; assumption|]. cbn [nth]. replace (k + S i)%nat with (S k + i)%nat by lia. apply H. lia. }
  destruct (G _ _ _ _ F) as [L H]. split; [exact L|]. intros i Hi. apply (H i Hi).
Qed.
Lemma covers_norm_ext norm norm' dirs v w e : (forall i x, (i < length dirs)%nat -> norm i x == norm' i x) -> covers_with norm dirs v w e -> covers_with norm' dirs v w e.
Proof.
  intros H C i d x y O. specialize (C i d x y O). assert (Hi : (i < length dirs)%nat) by (apply nth_error_Some; destruct O; congruence).
  pose proof (H i x Hi). pose proof (H i y Hi). destruct d; lra.
Qed.
Lemma normalized_least dirs s1 s2 mn mx : dirs <> [] -> vectors_of (length dirs) s1 -> vectors_of (length dirs) s2 -> s1 <> [] -> s2 <> [] ->
  (forall i, (i < length dirs)%nat -> spans (s1 ++ s2) i (mn i) (mx i) /\ mn i < mx i) ->
  exists e, additive_metric dirs true s1 s2 = Ok (Some e) /\ least (set_covers (fun i x => (x - mn i) / (mx i - mn i)) dirs s1 s2) e.
Proof.
  intros Nd V1 V2 N1 N2 Hs. destruct (setup_ok _ s1 s2 V1 V2 N1) as (bs & E & L & Hb). unfold additive_metric. rewrite E. cbn [rbind].
  assert (Hbi : forall i, (i < length dirs)%nat -> fst (nth i bs (0, 1)) == mn i /\ snd (nth i bs (0, 1)) == mx i - mn i).
  { intros i Hi. destruct (Hb i Hi) as (m & M & -> & S). destruct (Hs i Hi) as [S' _]. destruct (spans_unique _ _ _ _ _ _ S S') as [U1 U2]. cbn [fst snd]. lra. }
  assert (X : forall i x, (i < length dirs)%nat -> norm_of bs i x == (x - mn i) / (mx i - mn i)).
  { intros i x Hi. unfold norm_of. destruct (Hbi i Hi) as [U1 U2]. rewrite U1, U2. reflexivity. }
  destruct (set_metric_least (additive dirs bs) (fun a b e => covers_with (fun i x => (x - mn i) / (mx i - mn i)) dirs a b e) s1 s2) as (e & Ee & Le); auto.
  { intros a b Ha Hb'. destruct (additive_ok dirs bs a b L (V1 a Ha) (V2 b Hb')) as (es & Ea & Les & H).
    { intros q Hq Z. apply (In_nth _ _ (0, 1)) in Hq as (i & Hi & Eq). rewrite L in Hi. destruct (Hbi i Hi) as [_ U]. destruct (Hs i Hi) as [_ P]. rewrite Eq in U. lra. }
    exists es. split; [exact Ea|]. split; [destruct es; [destruct dirs; [congruence|discriminate]|discriminate]|]. intros e. rewrite <- H. split; apply covers_norm_ext; intros i x Hi; rewrite (X i x Hi); reflexivity. }
  exists e. split; [exact Ee|exact Le].
Qed.
Lemma plain_least dirs s1 s2 : dirs <> [] -> vectors_of (length dirs) s1 -> vectors_of (length dirs) s2 -> s1 <> [] -> s2 <> [] ->
  exists e, additive_metric dirs false s1 s2 = Ok (Some e) /\ least (set_covers (fun _ x => x) dirs s1 s2) e.
Proof.
  intros Nd V1 V2 N1 N2. unfold additive_metric. cbn [rbind]. set (bs := repeat (0, 1) (length dirs)).
  assert (X : forall i x, (i < length dirs)%nat -> norm_of bs i x == x).
  { intros i x Hi. unfold norm_of. replace (nth i bs (0, 1)) with ((0 : Q), (1 : Q)) by (symmetry; unfold bs; apply nth_repeat). cbn [fst snd]. field. }
  destruct (set_metric_least (additive dirs bs) (fun a b e => covers_with (fun _ x => x) dirs a b e) s1 s2) as (e & Ee & Le); auto.
  { intros a b Ha Hb'. destruct (additive_ok dirs bs a b (repeat_length _ _) (V1 a Ha) (V2 b Hb')) as (es & Ea & Les & H).
    { intros q Hq Z. apply repeat_spec in Hq. subst q. cbn in Z. lra. }
    exists es. split; [exact Ea|]. split; [destruct es; [destruct dirs; [congruence|discriminate]|discriminate]|]. intros e. rewrite <- H. split; apply covers_norm_ext; intros i x Hi; rewrite (X i x Hi); reflexivity. }
  exists e. split; [exact Ee|exact Le].
Qed.
Lemma times_least dirs s1 s2 : dirs <> [] -> vectors_of (length dirs) s1 -> vectors_of (length dirs) s2 -> s1 <> [] -> s2 <> [] ->
  (forall v x, In v (s1 ++ s2) -> In x v -> 0 < x) -> exists e, multiplicative_metric dirs s1 s2 = Ok (Some e) /\ least (set_covers_times dirs s1 s2) e.
Proof.
  intros Nd V1 V2 N1 N2 P. destruct (set_metric_least (multiplicative dirs) (fun a b e => covers_times dirs a b e) s1 s2) as (e & Ee & Le); auto.
  { intros a b Ha Hb'. destruct (multiplicative_ok dirs a b (V1 a Ha) (V2 b Hb')) as (es & Ea & Les & H); [intros x Hx; apply (P a); auto; apply in_or_app; auto|intros x Hx; apply (P b); auto; apply in_or_app; auto|].
    exists es. split; [exact Ea|]. split; [destruct es; [destruct dirs; [congruence|discriminate]|discriminate]|]. exact H. }
  exists e. split; [exact Ee|exact Le].
Qed.
(** ** consequences *)
Lemma covers_zero norm dirs v w : (forall i x y, (i < length dirs)%nat -> (norm i x <= norm i y <-> x <= y)) -> (covers_with norm dirs v w 0 <-> weakly_dominates dirs v w).
Proof.
  intros M. split; intros H i d x y O; specialize (H i d x y O); assert (Hi : (i < length dirs)%nat) by (apply nth_error_Some; destruct O; congruence).
  - intros B. destruct d; cbn in B; [assert (G : norm i x <= norm i y) by lra|assert (G : norm i y <= norm i x) by lra]; apply M in G; auto; lra.
  - destruct d; cbn in H; [assert (G : x <= y) by lra|assert (G : y <= x) by lra]; apply (M i) in G; auto; lra.
Qed.
Lemma covers_more norm dirs v w e e' : e <= e' -> covers_with norm dirs v w e -> covers_with norm dirs v w e'.
Proof. intros L H i d x y O. specialize (H i d x y O). destruct d; lra. Qed.
Lemma covers_twice norm dirs u v w e e' : length v = length dirs -> covers_with norm dirs u v e -> covers_with norm dirs v w e' -> covers_with norm dirs u w (e + e').
Proof.
  intros L H1 H2 i d x z (O1 & O2 & O3). assert (Hi : (i < length v)%nat) by (rewrite L; apply nth_error_Some; congruence).
  destruct (nth_error v i) as [y|] eqn:E; [|apply nth_error_None in E; lia].
  specialize (H1 i d x y (conj O1 (conj O2 E))). specialize (H2 i d y z (conj O1 (conj E O3))). destruct d; lra.
Qed.
