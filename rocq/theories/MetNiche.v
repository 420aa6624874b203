(** Proofs about the sets of the entropy. *)
From Coq Require Import List Bool Arith QArith Lia Lqa Permutation.
From Verif Require Import Lib Outcome BoundsModel BoundsProofs ParetoModel ParetoSpec ParetoProofs BoxSpec IndModel IndProofs MetModel MetSpec MetEps.
From Coq Require Import List.
Import ListNotations.
Local Open Scope Q_scope.

Lemma fill_permutes rest : Permutation (fill rest) rest.
Proof.
  destruct rest as [|a rest]; [constructor|]. unfold fill. rewrite (app_removelast_last a (l := a :: rest)) at 3 by discriminate. apply Permutation_cons_append.
Qed.
Lemma existsb_perm {A} (p : A -> bool) l l' : Permutation l l' -> existsb p l = existsb p l'.
Proof. intros P. induction P; cbn [existsb]; [reflexivity|congruence|destruct (p x), (p y); reflexivity|congruence]. Qed.
Lemma filter_perm {A} (p : A -> bool) l l' : Permutation l l' -> Permutation (filter p l) (filter p l').
Proof. intros P. induction P; cbn [filter]; [constructor|destruct (p x); auto|destruct (p x), (p y); auto; constructor|etransitivity; eauto]. Qed.

Section Remove.
Variables (dirs : list bool) (f : list (list Q)).
Hypothesis V : vectors_of (length dirs) f.
Notation R := (pareto 0 dirs).
Definition best (x : list Q) : bool := negb (existsb (R x) f).
Lemma best_gone a cur : incl (a :: cur) f -> (forall x, In x f -> In x (a :: cur) \/ exists b, In b (a :: cur) /\ R x b = true) -> existsb (R a) (a :: cur) = true ->
  best a = false /\ forall x, In x f -> In x cur \/ exists b, In b cur /\ R x b = true.
Proof.
  intros I H E. apply existsb_exists in E as (b & Hb & E). assert (Va := V a (I a (or_introl eq_refl))).
  destruct Hb as [<-|Hb]; [rewrite pareto_irrefl in E; [discriminate|lra|exact Va]|]. assert (Vb := V b (I b (or_intror Hb))). split.
  - unfold best. apply negb_false_iff. apply existsb_exists. exists b. split; [apply I; right; exact Hb|exact E].
  - intros x Hx. assert (Vx := V x Hx). destruct (H x Hx) as [[->|Hx']|(c & [->|Hc] & Ec)]; [right; exists b; auto|left; exact Hx'| |right; exists c; auto].
    right. exists b. split; [exact Hb|]. apply (pareto_trans dirs x c b); auto.
Qed.
Lemma remove_loop_ok : forall fuel kept todo, (length todo <= fuel)%nat -> incl (kept ++ todo) f ->
  (forall x, In x f -> In x (kept ++ todo) \/ exists b, In b (kept ++ todo) /\ R x b = true) ->
  forallb best kept = true -> Permutation (remove_loop 0 dirs fuel kept todo) (kept ++ filter best todo).
Proof.
  induction fuel as [|fuel IH]; intros kept todo L I H K; destruct todo as [|a rest]; cbn [remove_loop]; try (cbn in L; lia); try reflexivity.
  assert (P : Permutation (kept ++ a :: rest) (a :: kept ++ rest)) by (symmetry; apply Permutation_middle).
  assert (Pf : Permutation (kept ++ fill rest) (kept ++ rest)) by (apply Permutation_app_head, fill_permutes).
  cbn in L. destruct (existsb (fun b => R a b) (kept ++ a :: rest)) eqn:E.
  - assert (E' : existsb (R a) (a :: kept ++ rest) = true) by (rewrite <- (existsb_perm (R a) _ _ P); exact E).
    destruct (best_gone a (kept ++ rest)) as [B H'].
    + intros x Hx. apply I. eapply Permutation_in; [symmetry; exact P|exact Hx].
    + intros x Hx. destruct (H x Hx) as [G|(b & Hb & G)]; [left; eapply Permutation_in; eauto|right; exists b; split; [eapply Permutation_in; eauto|exact G]].
    + exact E'.
    + rewrite IH; [|rewrite (Permutation_length (fill_permutes rest)); lia| | |exact K].
      * cbn [filter]. rewrite B. apply Permutation_app_head, filter_perm, fill_permutes.
      * intros x Hx. apply I. eapply Permutation_in; [symmetry; exact P|]. right. eapply Permutation_in; eauto.
      * intros x Hx. destruct (H' x Hx) as [G|(b & Hb & G)]; [left; eapply Permutation_in; [symmetry; exact Pf|exact G]|right; exists b; split; [eapply Permutation_in; [symmetry; exact Pf|exact Hb]|exact G]].
  - assert (B : best a = true).
    { unfold best. apply negb_true_iff. destruct (existsb (R a) f) eqn:F; [|reflexivity]. exfalso. apply existsb_exists in F as (b & Hb & Eb).
      destruct (H b Hb) as [G|(c & Hc & G)].
      - assert (X : existsb (fun b => R a b) (kept ++ a :: rest) = true) by (apply existsb_exists; eauto). congruence.
      - assert (X : existsb (fun b => R a b) (kept ++ a :: rest) = true).
        { apply existsb_exists. exists c. split; [exact Hc|]. apply (pareto_trans dirs a b c); auto. apply V, I. apply in_or_app. right. left. reflexivity. }
        congruence. }
    rewrite IH; [|lia| | |].
    + cbn [filter]. rewrite B, <- app_assoc. reflexivity.
    + rewrite <- app_assoc. exact I.
    + intros x Hx. rewrite <- app_assoc. apply H. exact Hx.
    + rewrite forallb_app, K. cbn. rewrite B. reflexivity.
Qed.
Lemma remove_ok : Permutation (remove_dominated 0 dirs f) (filter best f).
Proof. unfold remove_dominated. rewrite remove_loop_ok; [reflexivity|lia|apply incl_refl| |reflexivity]. intros x Hx. left. exact Hx. Qed.
Lemma best_iff x : In x f -> (best x = true <-> forall y, In y f -> ~ dominates dirs y x).
Proof.
  intros Hx. unfold best. rewrite negb_true_iff. split.
  - intros H y Hy D. apply (pareto_exact dirs x y) in D; auto. assert (X : existsb (R x) f = true) by (apply existsb_exists; eauto). congruence.
  - intros H. destruct (existsb (R x) f) eqn:E; [|reflexivity]. apply existsb_exists in E as (y & Hy & E). exfalso. apply (H y Hy). apply pareto_exact; auto.
Qed.
End Remove.
Lemma union_ok f1 f2 : union 0 f1 f2 = f1 ++ filter (fun x => negb (existsb (fun y => same_vector 0 y x) f1)) f2.
Proof.
  unfold union. assert (G : forall l f, fold_left (fun f x => if existsb (fun y => same_vector 0 y x) f1 then f else f ++ [x]) l f = f ++ filter (fun x => negb (existsb (fun y => same_vector 0 y x) f1)) l).
  { induction l as [|x l IH]; intros f; cbn [fold_left filter]; [rewrite app_nil_r; reflexivity|]. rewrite IH. destruct (existsb (fun y => same_vector 0 y x) f1); cbn [negb]; [reflexivity|]. rewrite <- app_assoc. reflexivity. }
  apply G.
Qed.
Lemma square_ok : forall v w, length v = length w -> exists q, square v w = Ok q /\ q == square_distance v w.
Proof.
  induction v as [|x v IH]; intros [|y w] L; try discriminate; cbn [square square_distance]; [exists 0; split; reflexivity|].
  destruct (IH w ltac:(cbn in L; lia)) as (q & E & H). rewrite E. cbn [rbind]. eexists. split; [reflexivity|]. rewrite H. reflexivity.
Qed.
Lemma niche_ok n f s size : vectors_of n f -> length s = n -> exists k, in_niche f s size = Ok k /\
  k = length (filter (fun x => qltb (square_distance x s) ((natq n / natq size) * (natq n / natq size))) f).
Proof.
  intros V L. unfold in_niche. rewrite L. set (r := natq n / natq size).
  assert (G : forall m, exists k, fold_left (fun n x => let! n := n in let! d := square x s in Ok (if qltb d (r * r) then S n else n)) f (Ok m) = Ok k /\
    k = (m + length (filter (fun x => qltb (square_distance x s) (r * r)) f))%nat).
  { induction f as [|x f IH]; intros m; cbn [fold_left filter]; [exists m; split; [reflexivity|cbn; lia]|].
    cbn [rbind]. destruct (square_ok x s) as (q & E & H); [rewrite (V x (or_introl eq_refl)); auto|]. rewrite E. cbn [rbind].
    assert (Eq : qltb q (r * r) = qltb (square_distance x s) (r * r)).
    { destruct (qltb q (r * r)) eqn:A; destruct (qltb (square_distance x s) (r * r)) eqn:B; try reflexivity; [apply qltb_lt in A; apply qltb_ge in B; lra|apply qltb_ge in A; apply qltb_lt in B; lra]. }
    rewrite <- Eq. destruct (IH (fun v Hv => V v (or_intror Hv)) (if qltb q (r * r) then S m else m)) as (k & Ek & Hk). exists k. split; [exact Ek|]. rewrite Hk. destruct (qltb q (r * r)); cbn; lia. }
  destruct (G 0%nat) as (k & E & H). exists k. auto.
Qed.
Lemma extent_ok n f i : vectors_of n f -> f <> [] -> (i < n)%nat -> exists mn mx, extent f i = Ok (mn, mx) /\ spans f i mn mx.
Proof.
  intros V N Hi. destruct f as [|a f]; [congruence|]. unfold extent. cbn [hd_error tl of_opt rbind].
  destruct (nth_error a i) as [x|] eqn:E; [|apply nth_error_None in E; rewrite (V a (or_introl eq_refl)) in E; lia]. cbn [of_opt rbind].
  destruct (column n i f) as (xs & Ex & F); [intros v Hv; apply V; right; auto|exact Hi|]. rewrite Ex. cbn [rbind]. do 2 eexists. split; [reflexivity|].
  assert (M : (fold_left (fun m y => if qltb y m then y else m) xs x = x \/ In (fold_left (fun m y => if qltb y m then y else m) xs x) xs) /\ forall y, In y (x :: xs) -> fold_left (fun m y => if qltb y m then y else m) xs x <= y) by (exact (fold_min_ok xs x)).
  assert (K : (fold_left (fun m y => if qltb m y then y else m) xs x = x \/ In (fold_left (fun m y => if qltb m y then y else m) xs x) xs) /\ forall y, In y (x :: xs) -> y <= fold_left (fun m y => if qltb m y then y else m) xs x) by (exact (fold_max_ok xs x)).
  destruct M as [M1 M2], K as [K1 K2]. split; [|split].
  - destruct M1 as [->|M1]; [exists a; split; [left; reflexivity|exact E]|]. destruct (f2_in_r _ _ _ _ F M1) as (v & Hv & Ev). exists v. split; [right; exact Hv|exact Ev].
  - destruct K1 as [->|K1]; [exists a; split; [left; reflexivity|exact E]|]. destruct (f2_in_r _ _ _ _ F K1) as (v & Hv & Ev). exists v. split; [right; exact Hv|exact Ev].
  - intros v y [<-|Hv] Ey.
    + assert (y = x) as -> by congruence. split; [apply M2|apply K2]; left; reflexivity.
    + destruct (f2_in_l _ _ _ _ F Hv) as (z & Hz & Ez). assert (z = y) as -> by congruence. split; [apply M2|apply K2]; right; exact Hz.
Qed.
Lemma prenormalize_ok dirs f : vectors_of (length dirs) f -> f <> [] -> exists mm, prenormalize dirs f = Ok mm /\ length mm = length dirs /\
  forall i, (i < length dirs)%nat -> exists mn mx, nth_error mm i = Some (mn, mx) /\ spans f i mn mx.
Proof.
  intros V N. unfold prenormalize. destruct (each_of_ok (extent f) (fun i b => spans f i (fst b) (snd b)) (seq 0 (length dirs))) as (mm & E & F).
  { intros i Hi. apply in_seq in Hi. destruct (extent_ok _ f i V N ltac:(lia)) as (mn & mx & Eb & Hs). eexists. split; [exact Eb|exact Hs]. }
  exists mm. split; [exact E|]. clear E.
  assert (G : forall (P : nat -> Q * Q -> Prop) k m l, Forall2 P (seq k m) l -> length l = m /\ forall i, (i < m)%nat -> exists b, nth_error l i = Some b /\ P (k + i)%nat b).
  { clear. intros P k m. revert k. induction m as [|m IH]; intros k l F; cbn [seq] in F; inversion F; subst; [split; [reflexivity|lia]|].
    destruct (IH _ _ H3) as [L H]. split; [cbn; lia|]. intros [|i] Hi; [exists y; rewrite Nat.add_0_r; auto|]. cbn [nth_error]. replace (k + S i)%nat with (S k + i)%nat by lia. apply H. lia. }
  destruct (G _ _ _ _ F) as [L H]. split; [exact L|]. intros i Hi. destruct (H i Hi) as ([mn mx] & E & S). exists mn, mx. auto.
Qed.
Lemma normalize1_nth : forall mm v i x mn mx, nth_error v i = Some x -> nth_error mm i = Some (mn, mx) -> nth_error (normalize1 mm v) i = Some ((x - mn) / (mx - mn)).
Proof.
  induction mm as [|[a b] mm IH]; intros [|y v] [|i] x mn mx E1 E2; try discriminate; cbn in *.
  - inversion E1; inversion E2; subst. reflexivity.
  - apply IH; auto.
Qed.
Lemma normalize1_len : forall mm v, length (normalize1 mm v) = length v.
Proof. induction mm as [|[a b] mm IH]; intros [|y v]; cbn; auto. Qed.
