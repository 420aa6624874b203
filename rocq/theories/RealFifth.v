From Coq Require Import ZArith QArith Qround Qabs List Bool Arith Lia Lqa Permutation.
From Verif Require Import Lib Outcome BoundsModel BoundsSpec BoundsProofs RealModel RealSpec RealProofs RealOps RealEs.
From Coq Require Import List.
Import ListNotations.
Open Scope Q_scope.

(** ** atoms and evolution-strategy crossovers *)
Definition atom_ok (R : Q -> Q -> Q -> Prop) (f : atom) : Prop :=
  forall x y r x' b r', good r -> f x y r = Ok (x', b, r') -> good r' /\ R x y x' /\ (b = false -> x' = x).
Lemma exchange_ok : atom_ok (fun x y x' => x' = x \/ x' = y) exchange.
Proof.
  intros x y r x' b r' G H. unfold exchange in H. apply rbind_ok in H as ([c r1] & H1 & H). assert (G1 := flip_good _ _ _ _ G H1).
  destruct (_ && _)%bool; injection H as <- <- <-; auto. split; auto. split; auto. discriminate.
Qed.
Lemma intermediate_ok : atom_ok between intermediate.
Proof.
  intros x y r x' b r' G H. unfold intermediate in H. apply rbind_ok in H as ([c r1] & H1 & H). injection H as <- <- <-. destruct (uniform_good _ _ _ G H1) as (G1 & U).
  split; auto. split; [|discriminate]. unfold between. destruct (Qlt_le_dec x y); [left|right]; split; nra.
Qed.
Lemma cross_all_ok R f v w c r v' c' r' : atom_ok R f -> good r -> cross_all f v w (c, r) = Ok (v', (c', r')) ->
  good r' /\ length v' = length v /\ (length v <= length w)%nat /\
  (forall i x y x', nth_error v i = Some x -> nth_error w i = Some y -> nth_error v' i = Some x' -> R x y x') /\ (c' = false -> c = false /\ v' = v).
Proof.
  intros A G H. unfold cross_all in H. apply rbind_ok in H as ([[v1 w1] s1] & H1 & H). injection H as -> ->.
  match type of H1 with each2 ?g _ _ _ _ = _ => set (h := g) in * end.
  assert (Q : forall i x y (a : bool * rand) x' y' a', good (snd a) -> h i x y a = Ok (x', y', a') -> good (snd a') /\ R x y x').
  { intros i x y [c0 r0] x' y' a' Ga F. unfold h in F. apply rbind_ok in F as ([[x1 b] r1] & F1 & F). injection F as <- <- <-. destruct (A _ _ _ _ _ _ Ga F1) as (? & ? & ?). auto. }
  destruct (each2_inv (fun s => good (snd s)) (fun _ x y x' _ => R x y x') _ Q v w O (c, r) v' w1 (c', r') G H1) as (G' & L1 & L2 & L3 & RR & _).
  split; auto. split; auto. split; auto. split.
  - intros i x y x' Hx Hy Hx'. destruct (nth_error w1 i) as [y'|] eqn:E; [exact (RR i x y x' y' Hx Hy Hx' E)|]. apply nth_error_None in E. apply nth_error_lt in Hy. lia.
  - clear RR L1 L2 L3 Q. intros ->. clear G'. revert H1 G. generalize 0%nat as i. revert w c r v' w1. induction v as [|x v IH]; intros w c r v' w1 i H G; cbn [each2] in H.
    + injection H as <- <- <- <-. auto.
    + destruct w as [|y w]; [discriminate|]. apply rbind_ok in H as ([[x1 y1] [c1 r1]] & H1 & H). apply rbind_ok in H as ([[v1 w2] s2] & H2 & H). injection H as <- <- ->.
      unfold h in H1. apply rbind_ok in H1 as ([[x2 b] r2] & F1 & F). injection F as <- <- <- <-. destruct (A _ _ _ _ _ _ G F1) as (G1 & _ & K).
      destruct (IH _ _ _ _ _ _ H2 G1) as (E & ->). apply orb_false_iff in E as [-> ->]. rewrite K; auto.
Qed.
(** components of a child come from the components at the same place in the two parents *)
Definition from_parents (Ro Rm : Q -> Q -> Q -> Prop) (a b c : es) : Prop :=
  (forall i x y z, nth_error (obj a) i = Some x -> nth_error (obj b) i = Some y -> nth_error (obj c) i = Some z -> Ro x y z) /\
  (forall i x y z, nth_error (devs a) i = Some x -> nth_error (devs b) i = Some y -> nth_error (devs c) i = Some z -> Rm x y z) /\
  (forall i x y z, nth_error (angles a) i = Some x -> nth_error (angles b) i = Some y -> nth_error (angles c) i = Some z -> Rm x y z).
Definition same_sizes (a c : es) : Prop := length (obj c) = length (obj a) /\ length (devs c) = length (devs a) /\ length (angles c) = length (angles a).
Lemma standard_ok Ro Rm fo fm a b r a' c r' : atom_ok Ro fo -> atom_ok Rm fm -> good r -> standard_xover fo fm a b r = Ok (a', (c, r')) ->
  same_sizes a a' /\ from_parents Ro Rm a b a' /\ (c = false -> a' = a).
Proof.
  intros Ao Am G H. unfold standard_xover in H. apply rbind_ok in H as ([o [c1 r1]] & H1 & H). apply rbind_ok in H as ([d [c2 r2]] & H2 & H). apply rbind_ok in H as ([g [c3 r3]] & H3 & H).
  injection H as <- <- <-. destruct (cross_all_ok _ _ _ _ _ _ _ _ _ Ao G H1) as (G1 & L1 & _ & R1 & F1). destruct (cross_all_ok _ _ _ _ _ _ _ _ _ Am G1 H2) as (G2 & L2 & _ & R2 & F2).
  destruct (cross_all_ok _ _ _ _ _ _ _ _ _ Am G2 H3) as (G3 & L3 & _ & R3 & F3). split; [split; auto|]. split; [split; auto|].
  intros ->. destruct (F3 eq_refl) as (-> & ->). destruct (F2 eq_refl) as (-> & ->). destruct (F1 eq_refl) as (_ & ->). destruct a; auto.
Qed.
Lemma pick_ok pop r p r' : good r -> pick pop r = Ok (p, r') -> good r' /\ In p pop.
Proof.
  intros G H. unfold pick in H. apply rbind_ok in H as ([i r1] & H1 & H). apply rbind_ok in H as (q & H2 & H). injection H as <- <-. apply of_opt_ok in H2. apply nth_error_In in H2.
  apply random_good in H1; tauto.
Qed.
Lemma global_each_ok R f part pop v r v' r' : atom_ok R f -> good r -> global_each f part pop v r = Ok (v', r') ->
  good r' /\ length v' = length v /\ forall i z, nth_error v' i = Some z -> exists p q x y, In p pop /\ In q pop /\ nth_error (part p) i = Some x /\ nth_error (part q) i = Some y /\ R x y z.
Proof.
  intros A G H. unfold global_each in H. match type of H with each ?g _ _ _ = _ => set (h := g) in * end.
  assert (Q : forall i x (a : rand) z a', good a -> h i x a = Ok (z, a') -> good a' /\ exists p q x y, In p pop /\ In q pop /\ nth_error (part p) i = Some x /\ nth_error (part q) i = Some y /\ R x y z).
  { intros i x0 a z a' Ga F. unfold h in F. apply rbind_ok in F as ([p r1] & F1 & F). destruct (pick_ok _ _ _ _ Ga F1) as (G1 & I1). apply rbind_ok in F as ([q r2] & F2 & F). destruct (pick_ok _ _ _ _ G1 F2) as (G2 & I2).
    apply rbind_ok in F as (x & E1 & F). apply rbind_ok in F as (y & E2 & F). apply of_opt_ok in E1, E2. apply rbind_ok in F as ([[x1 b] r3] & F3 & F). injection F as <- <-.
    destruct (A _ _ _ _ _ _ G2 F3) as (G3 & Rz & _). split; auto. exists p, q, x, y. auto 10. }
  destruct (each_inv _ _ _ Q v O r v' r' G H) as (G' & L & RR). split; auto. split; auto. intros i z Hz.
  destruct (nth_error v i) as [x|] eqn:E; [exact (RR i x z E Hz)|]. apply nth_error_None in E. apply nth_error_lt in Hz. lia.
Qed.
Definition from_population (R : Q -> Q -> Q -> Prop) (part : es -> list Q) (pop : list es) (v : list Q) : Prop :=
  forall i z, nth_error v i = Some z -> exists p q x y, In p pop /\ In q pop /\ nth_error (part p) i = Some x /\ nth_error (part q) i = Some y /\ R x y z.
Lemma global_ok Ro Rm fo fm pop a r a' r' : atom_ok Ro fo -> atom_ok Rm fm -> good r -> global_xover fo fm pop a r = Ok (a', r') ->
  same_sizes a a' /\ valid a' = false /\ from_population Ro obj pop (obj a') /\ from_population Rm devs pop (devs a') /\ from_population Rm angles pop (angles a').
Proof.
  intros Ao Am G H. unfold global_xover in H. apply rbind_ok in H as ([o r1] & H1 & H). apply rbind_ok in H as ([d r2] & H2 & H). apply rbind_ok in H as ([g r3] & H3 & H). injection H as <- <-.
  destruct (global_each_ok _ _ _ _ _ _ _ _ Ao G H1) as (G1 & L1 & R1). destruct (global_each_ok _ _ _ _ _ _ _ _ Am G1 H2) as (G2 & L2 & R2). destruct (global_each_ok _ _ _ _ _ _ _ _ Am G2 H3) as (G3 & L3 & R3).
  split; [split; auto|]. auto.
Qed.

(** ** initialisation *)
Lemma init_vector_ok : forall bs r v r', Forall proper bs -> good r -> init_vector bs r = Ok (v, r') -> good r' /\ length v = length bs /\ all_inside bs v.
Proof.
  induction bs as [|b bs IH]; intros r v r' P G H; cbn [init_vector] in H.
  - injection H as <- <-. split; auto. split; auto. intros [|i]; discriminate.
  - apply rbind_ok in H as (rg & H1 & H). apply rbind_ok in H as ([u r1] & H2 & H). apply rbind_ok in H as (x & H3 & H). apply rbind_ok in H as ([v1 r2] & H4 & H). injection H as <- <-.
    inversion P as [|? ? P1 P2]; subst. destruct (uniform_good _ _ _ G H2) as (G1 & U). destruct (IH _ _ _ P2 G1 H4) as (G2 & L & I2). split; auto. split; [cbn; auto|].
    intros [|i] b0 x0 Hb Hx; cbn in Hb, Hx; [|eapply I2; eauto]. injection Hb as <-. injection Hx as <-.
    destruct b as [|mn mx| |]; try discriminate. cbn in H1, H3, P1 |- *. injection H1 as <-. injection H3 as <-. split; nra.
Qed.
Lemma init_angles_ok pi n : forall r a r', 0 < pi -> good r -> init_angles pi n r = Ok (a, r') -> length a = n /\ Forall (fun x => - pi <= x /\ x < pi) a.
Proof.
  induction n as [|n IH]; intros r a r' P G H; cbn [init_angles] in H.
  - injection H as <- <-. auto.
  - apply rbind_ok in H as ([u r1] & H1 & H). apply rbind_ok in H as ([l r2] & H2 & H). injection H as <- <-. destruct (uniform_good _ _ _ G H1) as (G1 & U). destruct (IH _ _ _ P G1 H2) as (L & F).
    split; [cbn; auto|]. constructor; auto. split; nra.
Qed.
Lemma ranges_ok : forall bs l, ranges bs = Ok l -> length l = length bs /\ forall i x, nth_error l i = Some x -> exists mn mx, nth_error bs i = Some (Interval mn mx) /\ x = mx - mn.
Proof.
  induction bs as [|b bs IH]; intros l H; cbn [ranges] in H.
  - injection H as <-. split; auto. intros [|i]; discriminate.
  - apply rbind_ok in H as (x & H1 & H). apply rbind_ok in H as (l1 & H2 & H). injection H as <-. destruct (IH _ H2) as (L & R). split; [cbn; auto|].
    intros [|i] y Hy; cbn in Hy |- *; [|eauto]. injection Hy as <-. destruct b as [|mn mx| |]; try discriminate. cbn in H1. injection H1 as <-. eauto.
Qed.
Lemma es_init_ok pi bs sg ts r v s a r' : 0 < pi -> Forall proper bs -> good r -> es_full_init pi bs sg ts r = Ok (v, s, a, r') ->
  length v = length bs /\ length s = length bs /\ length a = (length bs * (length bs - 1) / 2)%nat /\ all_inside bs v /\ Forall (fun x => - pi <= x /\ x < pi) a /\
  forall i b x, nth_error bs i = Some b -> nth_error s i = Some x -> if ts then exists mn mx, b = Interval mn mx /\ x = sg * (mx - mn) else x = sg.
Proof.
  intros Pp P G H. unfold es_full_init in H. apply rbind_ok in H as (s1 & H1 & H). apply rbind_ok in H as ([v1 r1] & H2 & H). apply rbind_ok in H as ([a1 r2] & H3 & H). injection H as <- <- <- <-.
  destruct (init_vector_ok _ _ _ _ P G H2) as (G1 & L1 & I1). destruct (init_angles_ok _ _ _ _ _ Pp G1 H3) as (L2 & F2). unfold vec_sigma in H1. destruct ts.
  - apply rbind_ok in H1 as (l & K & H1). injection H1 as <-. destruct (ranges_ok _ _ K) as (L & R). rewrite map_length. split; auto. split; auto. split; auto. split; auto. split; auto.
    intros i b x Hb Hx. rewrite nth_error_map in Hx. destruct (nth_error l i) as [y|] eqn:E; [|discriminate]. injection Hx as <-. destruct (R _ _ E) as (mn & mx & B & ->). exists mn, mx. split; auto. congruence.
  - injection H1 as <-. rewrite map_length. split; auto. split; auto. split; auto. split; auto. split; auto.
    intros i b x Hb Hx. rewrite nth_error_map, Hb in Hx. cbn in Hx. congruence.
Qed.

(** ** the one-fifth rule *)
Definition backwards (l : list nat) (g : nat) : list nat := rev (firstn (S g) l) ++ rev (skipn (S g) l).
Lemma backwards_sum l g : list_sum (backwards l g) = list_sum l.
Proof.
  unfold backwards. assert (R : forall a : list nat, list_sum (rev a) = list_sum a). { induction a; [auto|]. cbn [rev]. rewrite list_sum_app. unfold list_sum in *. cbn [fold_right] in *. lia. }
  rewrite list_sum_app, !R, <- list_sum_app, firstn_skipn. auto.
Qed.
(** the counts of a history, one per generation, latest first *)
Fixpoint per_generation (p : happening -> bool) (hs : list happening) : list nat :=
  match hs with
  | [] => [0%nat]
  | Next_generation :: hs => 0%nat :: per_generation p hs
  | h :: hs => match per_generation p hs with c :: l => ((if p h then 1 else 0) + c)%nat :: l | [] => [] end
  end.
Lemma per_generation_cons p hs : exists c l, per_generation p hs = c :: l.
Proof. induction hs as [|[] hs (c & l & E)]; cbn; try rewrite E; eauto. Qed.
Lemma recent_spec p : forall hs w, recent p (S w) hs = list_sum (firstn (S w) (per_generation p hs)).
Proof.
  induction hs as [|h hs IH]; intros w; [destruct w; auto|]. destruct (per_generation_cons p hs) as (c & l & E).
  assert (K : forall a, (a + recent p (S w) hs)%nat = list_sum (firstn (S w) ((a + c)%nat :: l))). { intros a. rewrite IH, E. cbn [firstn]. unfold list_sum. cbn [fold_right]. lia. }
  destruct h; cbn [recent per_generation]; try (rewrite E; apply K). destruct w as [|w].
  - cbn. auto.
  - rewrite IH. cbn [firstn]. unfold list_sum. cbn [fold_right]. auto.
Qed.
Definition pad (w : nat) (l : list nat) : list nat := firstn w (l ++ repeat 0%nat w).
Lemma pad_sum w l : list_sum (pad w l) = list_sum (firstn w l).
Proof.
  unfold pad. rewrite firstn_app. rewrite list_sum_app. assert (Z : forall a b, list_sum (firstn a (repeat 0%nat b)) = 0%nat). { induction a; intros [|b]; cbn; auto. } rewrite Z. lia.
Qed.
Lemma firstn_removelast {A} : forall (l : list A) n, (n < length l)%nat -> firstn n l = removelast (firstn (S n) l).
Proof.
  induction l as [|x l IH]; intros n H; [cbn in H; lia|]. destruct n as [|n]; [auto|]. cbn in H. cbn [firstn]. rewrite (IH n) by lia. destruct l as [|y l]; [cbn in H; lia|]. auto.
Qed.
Lemma pad_push w l : pad (S w) (0%nat :: l) = 0%nat :: removelast (pad (S w) l).
Proof.
  unfold pad. change (firstn (S w) ((0%nat :: l) ++ repeat 0%nat (S w))) with (0%nat :: firstn w (l ++ repeat 0%nat (S w))). f_equal. apply firstn_removelast.
  rewrite app_length, repeat_length. lia.
Qed.
Definition ring (w : nat) (l : list nat) (g : nat) (c : list nat) : Prop := length l = w /\ (g < w)%nat /\ backwards l g = pad w c.
Lemma set_split_at (l : list nat) i y : (i < length l)%nat -> set l i y = firstn i l ++ y :: skipn (S i) l.
Proof. revert i. induction l as [|a l IH]; intros [|i] H; cbn in H; try lia; auto. cbn [set firstn skipn app]. rewrite IH by lia. auto. Qed.
Lemma removelast_snoc {A} (l : list A) x : removelast (l ++ [x]) = l.
Proof. apply removelast_last. Qed.
Lemma ring_next w l g c l' : ring w l g c -> upd l ((g + 1) mod w) 0%nat = Some l' -> ring w l' ((g + 1) mod w) (0%nat :: c).
Proof.
  intros (L & Hg & B) U. destruct w as [|w]; [lia|]. assert (Hm := Nat.mod_upper_bound (g + 1) (S w) ltac:(lia)). apply upd_some in U as (Hi & ->).
  split; [rewrite set_length; auto|]. split; auto. rewrite pad_push, <- B. clear B.
  destruct (Nat.eq_dec (g + 1) (S w)) as [E|E].
  - rewrite E, Nat.mod_same in * by lia. assert (g = w) by lia. subst g. unfold backwards at 2. rewrite (firstn_all2 l), skipn_all2, app_nil_r by lia.
    destruct l as [|a l]; [cbn in L; lia|]. unfold backwards, set. cbn. rewrite removelast_snoc. auto.
  - rewrite Nat.mod_small in * by lia. replace (g + 1)%nat with (S g) in * by lia.
    assert (S1 : exists a b d, l = a ++ b :: d /\ length a = S g). { exists (firstn (S g) l). destruct (skipn (S g) l) as [|b d] eqn:Es; [assert (K := skipn_length (S g) l); rewrite Es in K; cbn in K; lia|]. exists b, d. rewrite <- Es, firstn_skipn. split; auto. rewrite firstn_length. lia. }
    destruct S1 as (a & b & d & -> & La). assert (Es : set (a ++ b :: d) (S g) 0%nat = a ++ 0%nat :: d).
    { rewrite set_split_at by (rewrite app_length; cbn; lia). rewrite <- La. rewrite firstn_app, Nat.sub_diag, firstn_all. cbn [firstn]. rewrite app_nil_r. f_equal. f_equal.
      replace (S (length a)) with (length a + 1)%nat by lia. rewrite skipn_app. replace (length a + 1 - length a)%nat with 1%nat by lia. rewrite skipn_all2 by lia. auto. }
    rewrite Es. unfold backwards.
    assert (F1 : forall y, firstn (S (S g)) (a ++ y :: d) = a ++ [y]). { intros y. rewrite <- La. replace (S (length a)) with (length a + 1)%nat by lia. rewrite firstn_app_2. auto. }
    assert (F2 : forall y, skipn (S (S g)) (a ++ y :: d) = d). { intros y. rewrite <- La. replace (S (length a)) with (length a + 1)%nat by lia. rewrite skipn_app. replace (length a + 1 - length a)%nat with 1%nat by lia. rewrite skipn_all2 by lia. auto. }
    assert (F3 : firstn (S g) (a ++ b :: d) = a). { rewrite <- La, firstn_app, Nat.sub_diag, firstn_all. cbn. apply app_nil_r. }
    assert (F4 : skipn (S g) (a ++ b :: d) = b :: d). { rewrite <- La, skipn_app, Nat.sub_diag, skipn_all. auto. }
    rewrite F1, F2, F3, F4. rewrite rev_app_distr. cbn [rev app]. f_equal. rewrite app_assoc, removelast_snoc. auto.
Qed.
Lemma ring_incr w l g c t l' : ring w l g (c :: t) -> incr l g = Ok l' -> ring w l' g (S c :: t).
Proof.
  intros (L & Hg & B) H. unfold incr in H. apply rbind_ok in H as (k & E & H). apply of_opt_ok in E, H. apply upd_some in H as (Hi & ->).
  split; [rewrite set_length; auto|]. split; auto. destruct w as [|w]; [lia|].
  assert (F : firstn (S g) l = firstn g l ++ [k]). { clear -E. revert l E. induction g as [|g IH]; intros [|x l] E; try discriminate; cbn in *; [congruence|]. f_equal. auto. }
  unfold backwards in *. rewrite F, rev_app_distr in B. cbn [rev app] in B. unfold pad in *.
  change (firstn (S w) ((c :: t) ++ repeat 0%nat (S w))) with (c :: firstn w (t ++ repeat 0%nat (S w))) in B. change (firstn (S w) ((S c :: t) ++ repeat 0%nat (S w))) with (S c :: firstn w (t ++ repeat 0%nat (S w))). injection B as -> B.
  rewrite set_split_at by auto.
  assert (Lg : length (firstn g l) = g) by (rewrite firstn_length; lia).
  replace (firstn (S g) (firstn g l ++ S c :: skipn (S g) l)) with (firstn g l ++ [S c]).
  2: { rewrite firstn_app, Lg. replace (S g - g)%nat with 1%nat by lia. rewrite (firstn_all2 (firstn g l)) by lia. auto. }
  replace (skipn (S g) (firstn g l ++ S c :: skipn (S g) l)) with (skipn (S g) l).
  2: { rewrite skipn_app, Lg. replace (S g - g)%nat with 1%nat by lia. rewrite (skipn_all2 (firstn g l)) by lia. auto. }
  rewrite rev_app_distr. cbn [rev app]. f_equal. auto.
Qed.

Section Rule.
Context {F : Type}.
Variables (better : F -> F -> bool) (eval : list Q -> F) (vb : vbounds) (p factor threshold : Q) (w : nat).
(** the states of the operator, and what happened *)
Inductive rule_reach : fifth -> list happening -> Prop :=
| rule_new s st : new_fifth factor s w = Ok st -> rule_reach st []
| rule_call st hs x r st' x' b r' v c r'' : rule_reach st hs -> fifth_call better eval vb p st x r = Ok (st', x', b, r') ->
    normal_mutation vb (sigma st) p (genes x) r = Ok (v, (c, r'')) ->
    rule_reach st' ((if c then Mutated (better (eval v) (match fit x with Some f => f | None => eval (genes x) end)) else Unchanged) :: hs)
| rule_update st hs st' : rule_reach st hs -> fifth_update factor threshold st = Ok st' -> rule_reach st' (Next_generation :: hs).
Lemma rule_inv st hs : (0 < w)%nat -> rule_reach st hs ->
  ring w (nb_mut st) (gen st) (per_generation a_mutation hs) /\ ring w (nb_success st) (gen st) (per_generation a_success hs).
Proof.
  intros Hw R. induction R as [s st H|st hs x r st' x' b r' v c r'' R IH H N|st hs st' R IH H].
  - unfold new_fifth in H. destruct (Qle_bool 1 factor); [discriminate|]. injection H as <-. cbn [nb_mut nb_success gen per_generation].
    assert (K : ring w (repeat 0%nat w) 0 [0%nat]); [|auto]. split; [apply repeat_length|]. split; auto.
    unfold backwards, pad. rewrite <- rev_app_distr. destruct w as [|k]; [lia|].
    assert (Rv : forall n, rev (repeat 0%nat n) = repeat 0%nat n). { induction n; auto. cbn [repeat rev]. rewrite IHn. symmetry. apply repeat_cons. }
    cbn [repeat firstn skipn app]. rewrite rev_app_distr, Rv. cbn [rev app]. f_equal. replace (0%nat :: repeat 0%nat k) with (repeat 0%nat k ++ [0%nat]) by (rewrite <- repeat_cons; auto).
    rewrite firstn_app, repeat_length, Nat.sub_diag. cbn [firstn]. rewrite app_nil_r. rewrite firstn_all2; auto. rewrite repeat_length. auto.
  - destruct IH as (I1 & I2). unfold fifth_call in H. rewrite N in H. cbn [rbind] in H. destruct c.
    + apply rbind_ok in H as (m & Hm & H). destruct (per_generation_cons a_mutation hs) as (c1 & l1 & E1). destruct (per_generation_cons a_success hs) as (c2 & l2 & E2).
      cbn [per_generation a_mutation a_success]. rewrite E1 in *. rewrite E2 in *.
      destruct (better _ _).
      * apply rbind_ok in H as (s & Hs & H). injection H as <- _ _ _. cbn [nb_mut nb_success gen]. cbn [Nat.add]. split; eapply ring_incr; eauto.
      * injection H as <- _ _ _. cbn [nb_mut nb_success gen]. cbn [Nat.add]. split; auto. eapply ring_incr; eauto.
    + injection H as <- _ _ _. cbn [per_generation a_mutation a_success]. destruct (per_generation_cons a_mutation hs) as (c1 & l1 & E1). destruct (per_generation_cons a_success hs) as (c2 & l2 & E2).
      rewrite E1, E2 in *. auto.
  - destruct IH as (I1 & I2). unfold fifth_update in H. cbv zeta in H. destruct (_ =? 0)%nat; [discriminate|]. apply rbind_ok in H as (m & Hm & H). apply rbind_ok in H as (s & Hs & H). injection H as <-.
    apply of_opt_ok in Hm, Hs. cbn [nb_mut nb_success gen per_generation]. assert (L1 := proj1 I1). rewrite L1 in *. split; eapply ring_next; eauto.
Qed.
Lemma rule_counts st hs : (0 < w)%nat -> rule_reach st hs -> list_sum (nb_mut st) = recent a_mutation w hs /\ list_sum (nb_success st) = recent a_success w hs.
Proof.
  intros Hw R. destruct (rule_inv st hs Hw R) as ((_ & _ & B1) & (_ & _ & B2)). destruct w as [|k]; [lia|]. rewrite !recent_spec, <- !pad_sum, <- B1, <- B2, !backwards_sum. auto.
Qed.
Lemma rule_update_ok st hs st' : (0 < w)%nat -> rule_reach st hs -> fifth_update factor threshold st = Ok st' ->
  let m := recent a_mutation w hs in let s := recent a_success w hs in
  sigma st' = if (0 <? m)%nat && qltb threshold (inject_Z (Z.of_nat s) / inject_Z (Z.of_nat m)) then sigma st / factor else sigma st * factor.
Proof.
  intros Hw R H. destruct (rule_counts st hs Hw R) as (E1 & E2). cbv zeta. rewrite <- E1, <- E2. unfold fifth_update in H. cbv zeta in H. destruct (_ =? 0)%nat; [discriminate|].
  apply rbind_ok in H as (m & Hm & H). apply rbind_ok in H as (s & Hs & H). injection H as <-. cbn [sigma]. destruct (list_sum (nb_mut st)) as [|n] eqn:E; auto.
Qed.
Lemma rule_update_total st hs : (0 < w)%nat -> rule_reach st hs -> exists st', fifth_update factor threshold st = Ok st'.
Proof.
  intros Hw R. destruct (rule_inv st hs Hw R) as ((L1 & G & _) & (L2 & _ & _)). unfold fifth_update. cbv zeta. destruct (Nat.eqb_spec (length (nb_mut st)) 0); [lia|].
  assert (Hm := Nat.mod_upper_bound (gen st + 1) (length (nb_mut st)) ltac:(lia)). rewrite !upd_set by lia. cbn [of_opt rbind]. eauto.
Qed.
Lemma call_ok st x r st' x' b r' bs : covers vb bs -> good r -> fifth_call better eval vb p st x r = Ok (st', x', b, r') ->
  (forall f, fit x = Some f -> f = eval (genes x)) -> fit x' = Some (eval (genes x')) /\ b = false /\ length (genes x') = length (genes x) /\ sigma st' = sigma st /\ (all_inside bs (genes x) -> all_inside bs (genes x')).
Proof.
  intros C G H V. unfold fifth_call in H. apply rbind_ok in H as ([v [c r1]] & H1 & H).
  destruct (normal_each_ok vb bs C (fun _ => Ok (sigma st)) p _ _ _ _ _ G H1) as (L & _ & I1 & E & _). destruct c.
  - apply rbind_ok in H as (m & Hm & H). destruct (better _ _); [apply rbind_ok in H as (s & Hs & H)|]; injection H as <- <- <- <-; cbn; auto.
  - injection H as <- <- <- <-. rewrite (E eq_refl) in *. cbn. split; auto. destruct (fit x) as [f|] eqn:Ef; auto. rewrite (V f eq_refl). auto.
Qed.
End Rule.
