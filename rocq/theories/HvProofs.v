(** Proofs about the hypervolume (C47). *)
From Coq Require Import List Arith Lia Bool ZArith QArith Lqa Qpower Permutation.
From Verif Require Import Outcome Lib ReplModel ReplProofs HvModel HvSpec.
Import ListNotations.
Close Scope Q_scope.
Open Scope nat_scope.

(** ** swapping a point out of the first [n] *)
Definition same_front {T} (n : nat) (F F' : list T) : Prop := Permutation (firstn n F) (firstn n F') /\ skipn n F' = skipn n F.
Lemma same_refl {T} n (F : list T) : same_front n F F. Proof. split; auto. Qed.
Lemma same_trans {T} n (F G H : list T) : same_front n F G -> same_front n G H -> same_front n F H.
Proof. intros [A B] [C D]. split; [eapply Permutation_trans; eauto|congruence]. Qed.
Lemma same_length {T} n (F G : list T) : same_front n F G -> length G = length F.
Proof.
  intros [A B]. apply Permutation_length in A. rewrite <- (firstn_skipn n F), <- (firstn_skipn n G), !app_length, A, B. auto.
Qed.
Lemma firstn_more {T} n m (F : list T) : n <= m -> firstn m F = firstn n F ++ firstn (m - n) (skipn n F).
Proof.
  intros H. rewrite <- (firstn_skipn n (firstn m F)). rewrite firstn_firstn, Nat.min_l by auto. rewrite skipn_firstn_comm. auto.
Qed.
Lemma skipn_more {T} n m (F : list T) : n <= m -> skipn m F = skipn (m - n) (skipn n F).
Proof.
  intros H. revert n m H. induction F as [|x F IH]; intros [|n] [|m] H; cbn; auto; try lia.
  - destruct (m - n); auto.
  - apply IH. lia.
Qed.
Lemma same_more {T} n m (F G : list T) : n <= m -> same_front n F G -> same_front m F G.
Proof.
  intros H [A B]. split.
  - rewrite (firstn_more n m F H), (firstn_more n m G H), B. apply Permutation_app; auto.
  - rewrite (skipn_more n m F H), (skipn_more n m G H), B. auto.
Qed.
Lemma swap_out {T} (F : list T) j n : j < n -> n <= length F -> exists F' x, swap_at F j (n - 1) = Some F' /\ nth_error F j = Some x /\
  length F' = length F /\ Permutation (firstn n F) (x :: firstn (n - 1) F') /\ same_front n F F' /\
  forall a, a < n - 1 -> nth_error F' a = if a =? j then nth_error F (n - 1) else nth_error F a.
Proof.
  intros Hj Hn. destruct (swap_at_total F j (n - 1)) as [F' E]; try lia. destruct (nth_error_in_some F j) as [x Hx]; [lia|].
  destruct (nth_error_in_some F (n - 1)) as [z Hz]; [lia|].
  pose proof (swap_at_nth_error _ _ _ _ E) as N. pose proof (swap_at_length _ _ _ _ E) as L. exists F', x. split; auto. split; auto. split; auto.
  assert (P : Permutation (firstn n F) (x :: firstn (n - 1) F')).
  { pose proof (pop_back_perm T (firstn n F) j x z) as P. rewrite firstn_length, Nat.min_l in P by auto.
    rewrite !firstn_nth_error in P by lia. specialize (P Hx Hz).
    replace (firstn (n - 1) F') with (removelast (set (firstn n F) j z)); auto.
    apply nth_error_ext. intros a. rewrite removelast_firstn_len, set_length, firstn_length, Nat.min_l by auto.
    destruct (Nat.lt_ge_cases a (n - 1)) as [Ha|Ha].
    - rewrite !firstn_nth_error by lia. rewrite nth_error_set, firstn_length, Nat.min_l by auto. rewrite N.
      destruct (Nat.eqb_spec a (n - 1)); [lia|]. destruct (Nat.eqb_spec a j); cbn [andb].
      + destruct (Nat.ltb_spec j n); [|lia]. auto.
      + rewrite firstn_nth_error by lia. auto.
    - rewrite !nth_error_ge; auto; rewrite firstn_length; [lia|]. rewrite set_length, firstn_length. lia. }
  assert (Sk : skipn n F' = skipn n F).
  { apply nth_error_ext. intros a. rewrite !skipn_nth_error, N. destruct (Nat.eqb_spec (n + a) (n - 1)); [lia|]. destruct (Nat.eqb_spec (n + a) j); [lia|]. auto. }
  split; auto. split.
  - split; auto. eapply Permutation_trans; [apply P|]. rewrite (firstn_more (n - 1) n F') by lia. replace (n - (n - 1)) with 1 by lia.
    assert (E1 : firstn 1 (skipn (n - 1) F') = [x]).
    { apply nth_error_ext. intros [|a].
      - rewrite firstn_nth_error by lia. rewrite skipn_nth_error, N, Nat.add_0_r, Nat.eqb_refl. auto.
      - rewrite !nth_error_ge; auto; [cbn; lia|rewrite firstn_length; lia]. }
    rewrite E1. apply Permutation_cons_append.
  - intros a Ha. rewrite N. destruct (Nat.eqb_spec a (n - 1)); [lia|auto].
Qed.
Lemma In_first {T} n (F : list T) x : In x (firstn n F) <-> exists i, i < n /\ nth_error F i = Some x.
Proof.
  split.
  - intros H. apply In_nth_error in H as [i H]. assert (i < n) by (apply nth_error_lt in H; rewrite firstn_length in H; lia).
    exists i. rewrite firstn_nth_error in H by auto. auto.
  - intros (i & Hi & H). apply (nth_error_In _ i). rewrite firstn_nth_error by auto. auto.
Qed.

(** ** domination on the first [k] coordinates *)
Definition ge (k : nat) (p q : point) : Prop := forall i x y, i < k -> nth_error p i = Some x -> nth_error q i = Some y -> (y <= x)%Q.
Definition covers (k : nat) (ps qs : list point) : Prop := forall p, In p ps -> exists q, In q qs /\ ge k q p.
Definition wf (k : nat) (ps : list point) : Prop := forall p, In p ps -> k <= length p.
Lemma ge_refl k p : ge k p p. Proof. intros i x y _ A B. assert (x = y) as -> by congruence. lra. Qed.
Lemma ge_trans k p q r : k <= length q -> ge k p q -> ge k q r -> ge k p r.
Proof.
  intros Hq A B i x z Hi Hx Hz. destruct (nth_error_in_some q i) as [y Hy]; [lia|]. specialize (A i x y Hi Hx Hy). specialize (B i y z Hi Hy Hz). lra.
Qed.
Lemma covers_incl k ps qs : incl ps qs -> covers k ps qs.
Proof. intros H p Hp. exists p. split; auto. apply ge_refl. Qed.
Lemma covers_trans k ps qs rs : wf k qs -> covers k ps qs -> covers k qs rs -> covers k ps rs.
Proof. intros W A B p Hp. destruct (A p Hp) as (q & Hq & G). destruct (B q Hq) as (r & Hr & G'). exists r. split; auto. apply (ge_trans k r q p); auto. Qed.
Lemma dom_loop_ok k : forall p q b, k <= length p -> k <= length q -> exists d, dom_loop k p q b = Ok d /\ (d = true -> ge k p q).
Proof.
  induction k as [|k IH]; intros p q b Hp Hq; cbn [dom_loop]; [exists b; split; auto; intros _ i x y Hi; lia|].
  destruct p as [|x p]; [cbn in Hp; lia|]. destruct q as [|y q]; [cbn in Hq; lia|]. cbn in Hp, Hq.
  assert (G : (y <= x)%Q -> ge k p q -> ge (S k) (x :: p) (y :: q)).
  { intros Hxy H [|i] u v Hi Hu Hv; cbn in Hu, Hv; [inversion Hu; inversion Hv; subst; auto|]. apply (H i); auto; lia. }
  destruct (qlt y x) eqn:E1; [|destruct (qlt x y) eqn:E2].
  - apply qlt_lt in E1. destruct (IH p q true) as (d & E & H); try lia. exists d. split; auto. intros Hd. apply G; auto. lra.
  - exists false. split; auto; discriminate.
  - apply qlt_ge in E1, E2. destruct (IH p q b) as (d & E & H); try lia. exists d. split; auto.
Qed.
Lemma hv_dom_ok k p q : k <= length p -> k <= length q -> exists d, hv_dominates p q k = Ok d /\ (d = true -> ge k p q).
Proof. apply dom_loop_ok. Qed.
Lemma hv_dom1 x p y q : hv_dominates (x :: p) (y :: q) 1 = Ok (qlt y x).
Proof. unfold hv_dominates. cbn. destruct (qlt y x); auto. destruct (qlt x y); auto. Qed.

Definition ND (k : nat) (F : list point) (a b : nat) : Prop :=
  forall p q, nth_error F a = Some p -> nth_error F b = Some q -> hv_dominates p q k = Ok false /\ hv_dominates q p k = Ok false.
Lemma ND_sym k F a b : ND k F a b -> ND k F b a.
Proof. intros H p q Hp Hq. destruct (H q p Hq Hp). auto. Qed.
Lemma ND_at k F F' a b c d : nth_error F' a = nth_error F c -> nth_error F' b = nth_error F d -> ND k F c d -> ND k F' a b.
Proof. intros E1 E2 H p q. rewrite E1, E2. apply H. Qed.

Lemma same_wf k n F F' : same_front n F F' -> wf k F -> wf k F'.
Proof.
  intros [A B] W p Hp. rewrite <- (firstn_skipn n F'), B in Hp. apply W. rewrite <- (firstn_skipn n F). apply in_app_iff. apply in_app_iff in Hp as [Hp|Hp]; auto.
  left. eapply Permutation_in; [apply Permutation_sym, A|auto].
Qed.
Lemma firstn_incl {T} n m (F : list T) : n <= m -> incl (firstn n F) (firstn m F).
Proof. intros H x Hx. apply In_first in Hx as (i & Hi & E). apply In_first. exists i. split; [lia|auto]. Qed.

Lemma inner_ok k : forall fuel F i j n, i < j -> j <= n -> n <= length F -> n - j <= fuel -> wf k F ->
  (forall b, i < b < j -> ND k F i b) -> (forall a b, a < i -> b < n -> a <> b -> ND k F a b) ->
  exists F' n' br, filter_inner fuel F i j n k = Ok (F', n', br) /\ n' <= n /\ i < n' + (if br then 1 else 0) /\ (br = true -> n' < n) /\ same_front n F F' /\
  covers k (firstn n F) (firstn n' F') /\
  (forall a b, a < i -> b < n' -> a <> b -> ND k F' a b) /\ (br = false -> forall b, b < n' -> b <> i -> ND k F' i b).
Proof.
  induction fuel as [|f IH]; intros F i j n Hij Hjn Hn Hf W Hi Ha; cbn [filter_inner].
  - destruct (Nat.ltb_spec j n); [lia|]. exists F, n, false. split; auto. split; auto. split; [lia|]. split; [discriminate|]. split; [apply same_refl|]. split; [apply covers_incl, incl_refl|].
    split; auto. intros _ b Hb Hne. destruct (Nat.lt_ge_cases b i); [apply ND_sym, Ha; auto; lia|apply Hi; lia].
  - destruct (Nat.ltb_spec j n) as [Lt|Ge].
    2:{ exists F, n, false. split; auto. split; auto. split; [lia|]. split; [discriminate|]. split; [apply same_refl|]. split; [apply covers_incl, incl_refl|].
        split; auto. intros _ b Hb Hne. destruct (Nat.lt_ge_cases b i); [apply ND_sym, Ha; auto; lia|apply Hi; lia]. }
    destruct (nth_error_in_some F i) as [p Hp]; [lia|]. destruct (nth_error_in_some F j) as [q Hq]; [lia|]. rewrite Hp, Hq. cbn [of_opt rbind].
    assert (Wp : k <= length p) by (apply W; eapply nth_error_In; eauto). assert (Wq : k <= length q) by (apply W; eapply nth_error_In; eauto).
    destruct (hv_dom_ok k p q Wp Wq) as (d & Ed & Gd). rewrite Ed. cbn [rbind]. destruct d.
    + destruct (swap_out F j n) as (F1 & x & E1 & Hx & L1 & P1 & S1 & N1); try lia. rewrite E1. cbn [of_opt rbind]. assert (x = q) as -> by congruence.
      destruct (IH F1 i j (n - 1)) as (F' & n' & br & E & Hn' & Hp' & Hbr & S' & C' & A' & B'); try lia.
      * eapply same_wf; eauto.
      * intros b Hb. eapply (ND_at k F F1 i b i b); [| |apply Hi; lia]; rewrite N1 by lia.
        -- destruct (Nat.eqb_spec i j); [lia|auto].
        -- destruct (Nat.eqb_spec b j); [lia|auto].
      * intros a b Ha' Hb Hne. assert (Ea : nth_error F1 a = nth_error F a) by (rewrite N1 by lia; destruct (Nat.eqb_spec a j); [lia|auto]).
        assert (Eb : nth_error F1 b = nth_error F (if b =? j then n - 1 else b)) by (rewrite N1 by lia; destruct (b =? j); auto).
        eapply ND_at; [apply Ea|apply Eb|]. apply Ha; auto; destruct (Nat.eqb_spec b j); lia.
      * exists F', n', br. split; auto. split; [lia|]. split; auto. split; [intros Hb; specialize (Hbr Hb); lia|]. split; [eapply same_trans; [apply S1|apply (same_more (n - 1)); auto; lia]|].
        split; auto. eapply covers_trans; [| |apply C'].
        -- intros r Hr. apply (same_wf k n F F1 S1 W). eapply In_firstn'; eauto.
        -- intros r Hr. eapply Permutation_in in Hr; [|apply P1]. destruct Hr as [<-|Hr]; [|exists r; split; auto; apply ge_refl].
           exists p. split; auto. apply In_first. exists i. split; [lia|]. rewrite N1 by lia. destruct (Nat.eqb_spec i j); [lia|auto].
    + destruct (hv_dom_ok k q p Wq Wp) as (d' & Ed' & Gd'). rewrite Ed'. cbn [rbind]. destruct d'.
      * destruct (swap_out F i n) as (F1 & x & E1 & Hx & L1 & P1 & S1 & N1); try lia. rewrite E1. cbn [of_opt rbind]. assert (x = p) as -> by congruence.
        exists F1, (n - 1), true. split; auto. split; [lia|]. split; [lia|]. split; [lia|]. split; auto. split; [|split; [|discriminate]].
        -- intros r Hr. eapply Permutation_in in Hr; [|apply P1]. destruct Hr as [<-|Hr]; [|exists r; split; auto; apply ge_refl].
           exists q. split; auto. destruct (Nat.eq_dec j (n - 1)) as [Ej|Ej].
           ++ apply In_first. exists i. split; [lia|]. rewrite N1 by lia. rewrite Nat.eqb_refl, <- Ej. auto.
           ++ apply In_first. exists j. split; [lia|]. rewrite N1 by lia. destruct (Nat.eqb_spec j i); [lia|auto].
        -- intros a b Ha' Hb Hne. assert (Ea : nth_error F1 a = nth_error F a) by (rewrite N1 by lia; destruct (Nat.eqb_spec a i); [lia|auto]).
           assert (Eb : nth_error F1 b = nth_error F (if b =? i then n - 1 else b)) by (rewrite N1 by lia; destruct (b =? i); auto).
           eapply ND_at; [apply Ea|apply Eb|]. apply Ha; auto; destruct (Nat.eqb_spec b i); lia.
      * destruct (IH F i (S j) n) as (F' & n' & br & E & R); try lia; auto; [|exists F', n', br; auto].
        intros b Hb. destruct (Nat.eq_dec b j) as [->|]; [|apply Hi; lia]. intros p' q' Hp' Hq'. assert (p' = p) as -> by congruence. assert (q' = q) as -> by congruence. auto.
Qed.

Lemma outer_ok k : forall fuel F i n, i <= n -> n <= length F -> 2 * n - i <= fuel -> wf k F ->
  (forall a b, a < i -> b < n -> a <> b -> ND k F a b) ->
  exists F' n', filter_outer fuel F i n k = Ok (F', n') /\ n' <= n /\ same_front n F F' /\ covers k (firstn n F) (firstn n' F') /\
  (forall a b, a < n' -> b < n' -> a <> b -> ND k F' a b).
Proof.
  assert (Done : forall F i n, n <= i -> (forall a b, a < i -> b < n -> a <> b -> ND k F a b) -> exists F' n', Ok (F, n) = Ok (F', n') /\ n' <= n /\ same_front n F F' /\ covers k (firstn n F) (firstn n' F') /\
     (forall a b, a < n' -> b < n' -> a <> b -> ND k F' a b)).
  { intros F i n Hi Ha. exists F, n. split; auto. split; auto. split; [apply same_refl|]. split; [apply covers_incl, incl_refl|]. intros; apply Ha; auto; lia. }
  induction fuel as [|f IH]; intros F i n Hi Hn Hf W Ha; cbn [filter_outer].
  - destruct (Nat.ltb_spec i n); [lia|]. apply (Done F i n); auto.
  - destruct (Nat.ltb_spec i n) as [Lt|Ge]; [|apply (Done F i n); auto].
    destruct (inner_ok k n F i (S i) n) as (F1 & n1 & br & E1 & Hn1 & Hp1 & Hbr & S1 & C1 & A1 & B1); try lia; auto.
    rewrite E1. cbn [rbind]. pose proof (same_length _ _ _ S1) as L1.
    destruct (IH F1 (if br then i else S i) n1) as (F' & n' & E & Hn' & S' & C' & A'); try (destruct br; [specialize (Hbr eq_refl)|]; lia).
    + eapply same_wf; eauto.
    + destruct br; auto. intros a b Hlt Hb Hne. destruct (Nat.eq_dec a i) as [->|]; [apply B1; auto|apply A1; auto; lia].
    + exists F', n'. split; auto. split; [lia|]. split; [eapply same_trans; [apply S1|eapply same_more; [|apply S']; lia]|]. split; auto.
      eapply covers_trans; [|apply C1|apply C']. intros r Hr. apply (same_wf k n F F1 S1 W). eapply In_firstn'; eauto.
Qed.
Lemma filter_ok k F n : n <= length F -> wf k F -> exists F' n', filter_nondominated F n k = Ok (F', n') /\ n' <= n /\ same_front n F F' /\
  covers k (firstn n F) (firstn n' F') /\ (forall a b, a < n' -> b < n' -> a <> b -> ND k F' a b).
Proof. intros Hn W. apply outer_ok; auto; lia. Qed.

(** ** the minimum and the removal of the points below it *)
Lemma at_ok (F : list point) i j (p : point) x : nth_error F i = Some p -> nth_error p j = Some x -> at_ F i j = Ok x.
Proof. intros Hp Hx. unfold at_. rewrite Hp. cbn. rewrite Hx. auto. Qed.
Lemma min_loop_ok obj F n : n <= length F -> wf (S obj) F -> forall cnt i m, i + cnt = n -> 0 < i ->
  (exists p, In p (firstn i F) /\ nth_error p obj = Some m) -> (forall p x, In p (firstn i F) -> nth_error p obj = Some x -> (m <= x)%Q) ->
  exists m', min_loop F i cnt obj m = Ok m' /\ (exists p, In p (firstn n F) /\ nth_error p obj = Some m') /\
  (forall p x, In p (firstn n F) -> nth_error p obj = Some x -> (m' <= x)%Q).
Proof.
  intros Hn W. induction cnt as [|c IH]; intros i m Hi H0 He Ha; cbn [min_loop].
  - assert (i = n) as -> by lia. eauto.
  - destruct (nth_error_in_some F i) as [p Hp]; [lia|]. assert (Wp : S obj <= length p) by (apply W; eapply nth_error_In; eauto).
    destruct (nth_error_in_some p obj) as [x Hx]; [lia|]. rewrite (at_ok F i obj p x Hp Hx). cbn [rbind].
    assert (Fs : forall r, In r (firstn (S i) F) -> In r (firstn i F) \/ r = p).
    { intros r Hr. apply In_first in Hr as (a & Ha' & Hr). destruct (Nat.eq_dec a i) as [->|]; [right; congruence|left; apply In_first; exists a; split; [lia|auto]]. }
    apply IH; try lia.
    + destruct (qlt x m); [exists p; split; auto; apply In_first; exists i; split; [lia|auto]|]. destruct He as (r & Hr & Er). exists r. split; auto. eapply (firstn_incl i); [lia|auto].
    + intros r y Hr Hy. apply Fs in Hr as [Hr| ->].
      * specialize (Ha r y Hr Hy). destruct (qlt x m) eqn:E; [apply qlt_lt in E; lra|auto].
      * assert (y = x) as -> by congruence. destruct (qlt x m) eqn:E; [lra|apply qlt_ge in E; lra].
Qed.
Lemma surface_ok obj F n : 0 < n -> n <= length F -> wf (S obj) F -> exists m, surface_unchanged_to F n obj = Ok m /\
  (exists p, In p (firstn n F) /\ nth_error p obj = Some m) /\ (forall p x, In p (firstn n F) -> nth_error p obj = Some x -> (m <= x)%Q).
Proof.
  intros H0 Hn W. unfold surface_unchanged_to. destruct (Nat.ltb_spec n 1); [lia|]. destruct (nth_error_in_some F 0) as [p Hp]; [lia|].
  assert (Wp : S obj <= length p) by (apply W; eapply nth_error_In; eauto). destruct (nth_error_in_some p obj) as [x Hx]; [lia|].
  rewrite (at_ok F 0 obj p x Hp Hx). cbn [rbind]. apply min_loop_ok; auto; try lia.
  - exists p. split; auto. apply In_first. exists 0. auto.
  - intros r y Hr Hy. apply In_first in Hr as (a & Ha & Hr). assert (a = 0) as -> by lia. assert (r = p) as -> by congruence. assert (y = x) as -> by congruence. lra.
Qed.
Lemma reduce_loop_ok obj t : forall fuel F i n, i <= n -> n <= length F -> n - i <= fuel -> wf (S obj) F ->
  (forall a p x, a < i -> nth_error F a = Some p -> nth_error p obj = Some x -> (t < x)%Q) ->
  exists F' n' dropped, reduce_loop fuel F i n obj t = Ok (F', n') /\ n' <= n /\ same_front n F F' /\
  Permutation (firstn n F) (dropped ++ firstn n' F') /\
  (forall p x, In p dropped -> nth_error p obj = Some x -> (x <= t)%Q) /\ (forall p x, In p (firstn n' F') -> nth_error p obj = Some x -> (t < x)%Q).
Proof.
  assert (Done : forall F i n, n <= i -> (forall a p x, a < i -> nth_error F a = Some p -> nth_error p obj = Some x -> (t < x)%Q) ->
    exists F' n' dropped, Ok (F, n) = Ok (F', n') /\ n' <= n /\ same_front n F F' /\ Permutation (firstn n F) (dropped ++ firstn n' F') /\
  (forall p x, In p dropped -> nth_error p obj = Some x -> (x <= t)%Q) /\ (forall p x, In p (firstn n' F') -> nth_error p obj = Some x -> (t < x)%Q)).
  { intros F i n Hi Ha. exists F, n, []. split; auto. split; auto. split; [apply same_refl|]. split; [auto|]. split; [intros p x []|].
    intros p x Hp Hx. apply In_first in Hp as (a & Ha' & Hp). apply (Ha a p); auto. lia. }
  induction fuel as [|f IH]; intros F i n Hi Hn Hf W Ha; cbn [reduce_loop].
  - destruct (Nat.ltb_spec i n); [lia|]. apply (Done F i n); auto.
  - destruct (Nat.ltb_spec i n) as [Lt|Ge]; [|apply (Done F i n); auto].
    destruct (nth_error_in_some F i) as [p Hp]; [lia|]. assert (Wp : S obj <= length p) by (apply W; eapply nth_error_In; eauto).
    destruct (nth_error_in_some p obj) as [x Hx]; [lia|]. rewrite (at_ok F i obj p x Hp Hx). cbn [rbind]. destruct (Qle_bool x t) eqn:E.
    + apply Qle_bool_iff in E. destruct (swap_out F i n) as (F1 & q & E1 & Hq & L1 & P1 & S1 & N1); try lia. rewrite E1. cbn [of_opt rbind]. assert (q = p) as -> by congruence.
      destruct (IH F1 i (n - 1)) as (F' & n' & d & E' & Hn' & S' & P' & D' & K'); try lia.
      * eapply same_wf; eauto.
      * intros a r y Hai Hr Hy. rewrite N1 in Hr by lia. destruct (Nat.eqb_spec a i); [lia|]. eapply Ha; eauto.
      * exists F', n', (p :: d). split; auto. split; [lia|]. split; [eapply same_trans; [apply S1|eapply same_more; [|apply S']; lia]|]. split.
        -- eapply Permutation_trans; [apply P1|]. cbn. constructor. auto.
        -- split; auto. intros r y [<-|Hr] Hy; eauto. assert (y = x) as -> by congruence. auto.
    + assert (Hlt : (t < x)%Q) by (apply Qnot_le_lt; intros C; apply Qle_bool_iff in C; congruence).
      apply IH; auto; try lia. intros a r y Hai Hr Hy. destruct (Nat.eq_dec a i) as [->|]; [|apply (Ha a r); auto; lia].
      assert (r = p) as -> by congruence. assert (y = x) as -> by congruence. auto.
Qed.

(** ** cells *)
Lemma natQ_S n : (natQ (S n) == natQ n + 1)%Q.
Proof. unfold natQ. rewrite Nat2Z.inj_succ, <- Z.add_1_r, inject_Z_plus. reflexivity. Qed.
Lemma natQ_le a b : (natQ a <= natQ b)%Q <-> a <= b.
Proof. unfold natQ. rewrite <- Zle_Qle. lia. Qed.
Lemma natQ_lt a b : (natQ a < natQ b)%Q <-> a < b.
Proof. unfold natQ. rewrite <- Zlt_Qlt. lia. Qed.
Lemma natQ_eq a b : (natQ a == natQ b)%Q -> a = b.
Proof. unfold natQ, Qeq. cbn. lia. Qed.
Lemma natQ_add a b : (natQ (a + b) == natQ a + natQ b)%Q.
Proof. unfold natQ. rewrite Nat2Z.inj_add, inject_Z_plus. reflexivity. Qed.
Lemma natQ_mul a b : (natQ (a * b) == natQ a * natQ b)%Q.
Proof. unfold natQ. rewrite Nat2Z.inj_mul, inject_Z_mult. reflexivity. Qed.
Lemma natQ_pos g : 0 < g -> (0 < natQ g)%Q. Proof. intros H. change (natQ 0 < natQ g)%Q. apply natQ_lt. auto. Qed.
Lemma pow_S g k : 0 < g -> (natQ g ^ Z.of_nat (S k) == natQ g * natQ g ^ Z.of_nat k)%Q.
Proof.
  intros H. pose proof (natQ_pos g H). rewrite Nat2Z.inj_succ. unfold Z.succ. rewrite Qpower_plus by lra. change (natQ g ^ 1)%Q with (natQ g). ring.
Qed.
Lemma pow_pos g k : 0 < g -> (0 < natQ g ^ Z.of_nat k)%Q.
Proof. intros H. induction k as [|k IH]; [cbn; lra|]. rewrite pow_S by auto. pose proof (natQ_pos g H). nra. Qed.

Lemma grid_wf g k P : on_grid g k P -> wf k P.
Proof.
  intros [_ G] p Hp. destruct (Nat.le_gt_cases k (length p)); auto. destruct (G p (length p) Hp H) as (x & m & E & _). apply nth_error_lt in E. lia.
Qed.
Lemma grid_incl g k P Q : incl Q P -> on_grid g k P -> on_grid g k Q.
Proof. intros I [H G]. split; auto. Qed.
Lemma grid_le g k k' P : k' <= k -> on_grid g k P -> on_grid g k' P.
Proof. intros L [H G]. split; auto. intros p i Hp Hi. apply G; auto. lia. Qed.
Lemma inside_covers g k P Q c : 0 < g -> wf k P -> covers k P Q -> cell_inside g k P c -> cell_inside g k Q c.
Proof.
  intros Hg W C [L (p & Hp & I)]. split; auto. destruct (C p Hp) as (q & Hq & G). exists q. split; auto. intros i a y Ha Hy.
  assert (Hi : i < k) by (apply nth_error_lt in Ha; lia). specialize (W p Hp). destruct (nth_error_in_some p i) as [x Hx]; [lia|].
  specialize (I i a x Ha Hx). specialize (G i y x Hi Hy Hx). pose proof (natQ_pos g Hg). nra.
Qed.
Lemma volume_iff g k P Q v : (forall c, cell_inside g k P c <-> cell_inside g k Q c) -> volume_on_grid g k P v -> volume_on_grid g k Q v.
Proof. intros H (L & N & I & E). exists L. split; auto. split; auto. intros c. rewrite I. apply H. Qed.
Lemma NoDup_app_in {T} (l r : list T) : NoDup l -> NoDup r -> (forall x, In x l -> In x r -> False) -> NoDup (l ++ r).
Proof.
  induction l as [|x l IH]; intros A B C; auto. cbn. inversion A; subst. constructor.
  - rewrite in_app_iff. intros [H|H]; auto. apply (C x); cbn; auto.
  - apply IH; auto. intros y Hy. apply C. cbn; auto.
Qed.

(** stacking the cells of dimension [k] over the layers [hs] *)
Definition stack (hs : list nat) (cs : list (list nat)) : list (list nat) := flat_map (fun h => map (fun c => c ++ [h]) cs) hs.
Lemma stack_In hs cs c h : In (c ++ [h]) (stack hs cs) <-> In h hs /\ In c cs.
Proof.
  unfold stack. rewrite in_flat_map. split.
  - intros (h' & Hh & H). apply in_map_iff in H as (c' & E & Hc). apply app_inj_tail in E as [-> ->]. auto.
  - intros [Hh Hc]. exists h. split; auto. apply in_map_iff. exists c. auto.
Qed.
Lemma stack_shape hs cs c : In c (stack hs cs) -> exists c' h, c = c' ++ [h].
Proof. unfold stack. rewrite in_flat_map. intros (h & _ & H). apply in_map_iff in H as (c' & E & _). eauto. Qed.
Lemma stack_length hs cs : length (stack hs cs) = length hs * length cs.
Proof. unfold stack. induction hs as [|h hs IH]; auto. cbn. rewrite app_length, map_length, IH. auto. Qed.
Lemma stack_NoDup hs cs : NoDup hs -> NoDup cs -> NoDup (stack hs cs).
Proof.
  unfold stack. induction hs as [|h hs IH]; intros A B; cbn; [constructor|]. inversion A; subst. apply NoDup_app_in; auto.
  - apply FinFun.Injective_map_NoDup; auto. intros x y E. apply app_inj_tail in E. tauto.
  - intros c Hc Hc'. apply in_map_iff in Hc as (c' & <- & _). apply (stack_In hs cs c' h) in Hc' as [Hh _]. auto.
Qed.

(** ** one dimension: the first coordinate of a point of a mutually non-dominated front *)
Lemma first_value_ok g F n : 0 < n -> n <= length F -> on_grid g 1 (firstn n F) -> (forall a b, a < n -> b < n -> a <> b -> ND 1 F a b) ->
  exists v F', first_value F n = Ok (v, F') /\ same_front n F F' /\ volume_on_grid g 1 (firstn n F) v.
Proof.
  intros H0 Hn G Hd. destruct (nth_error_in_some F 0) as [p Hp]; [lia|].
  assert (Ip : In p (firstn n F)) by (apply In_first; exists 0; auto).
  pose proof (natQ_pos g (proj1 G)) as Hg. destruct (proj2 G p 0 Ip) as (x & m & Hx & Ex); [lia|].
  exists x, F. split; [unfold first_value; rewrite (at_ok F 0 0 p x Hp Hx); auto|]. split; [apply same_refl|].
  assert (Same : forall q y, In q (firstn n F) -> nth_error q 0 = Some y -> (y == x)%Q).
  { intros q y Hq Hy. apply In_first in Hq as (b & Hb & Hq). destruct (Nat.eq_dec b 0) as [->|Hb0].
    - assert (q = p) as -> by congruence. assert (y = x) as -> by congruence. reflexivity.
    - destruct (Hd 0 b H0 Hb (fun e => Hb0 (eq_sym e)) p q Hp Hq) as [A B]. destruct p as [|px p]; [discriminate|]. destruct q as [|qy q]; [discriminate|].
      cbn in Hx, Hy. inversion Hx; inversion Hy; subst. rewrite hv_dom1 in A, B. inversion A as [A']. inversion B as [B']. apply qlt_ge in A', B'. lra. }
  exists (map (fun a => [a]) (seq 0 m)). split; [|split].
  - apply FinFun.Injective_map_NoDup; [intros a b E; congruence|apply seq_NoDup].
  - intros c. rewrite in_map_iff. split.
    + intros (a & <- & Ha). apply in_seq in Ha. split; auto. exists p. split; auto. intros [|i] b y Hb Hy; [|destruct i; discriminate].
      cbn in Hb. inversion Hb; subst b. assert (y = x) as -> by congruence. rewrite Ex, <- natQ_S. apply natQ_le. lia.
    + intros [L (q & Hq & I)]. destruct c as [|a [|]]; try discriminate. exists a. split; auto. apply in_seq. split; [lia|].
      destruct (proj2 G q 0 Hq) as (y & m' & Hy & Ey); [lia|]. specialize (I 0 a y eq_refl Hy). pose proof (Same q y Hq Hy) as Exy. rewrite Exy, Ex, <- natQ_S in I.
      apply natQ_le in I. lia.
  - rewrite map_length, seq_length. change (natQ g ^ Z.of_nat 1)%Q with (natQ g). auto.
Qed.

(** ** the sweep over the last objective *)
Definition sub_ok (g k : nat) (sub : list point -> nat -> res (Q * list point)) : Prop :=
  forall F n, 0 < n -> n <= length F -> on_grid g k (firstn n F) -> wf k F -> (forall a b, a < n -> b < n -> a <> b -> ND k F a b) ->
  exists v F', sub F n = Ok (v, F') /\ same_front n F F' /\ volume_on_grid g k (firstn n F) v.

Lemma slices_ok g k sub (P : list point) : sub_ok g k sub -> on_grid g (S k) P ->
  forall fuel F n volume D dn L, n <= fuel -> n <= length F -> wf (S k) F -> incl (firstn n F) P ->
  (D * natQ g == natQ dn)%Q ->
  (forall p x, In p P -> nth_error p k = Some x -> (D < x)%Q -> In p (firstn n F)) ->
  (forall p x, In p (firstn n F) -> nth_error p k = Some x -> (D <= x)%Q) ->
  NoDup L -> (forall c h, In (c ++ [h]) L <-> cell_inside g (S k) P (c ++ [h]) /\ h < dn) -> ~ In [] L ->
  (volume * natQ g ^ Z.of_nat (S k) == natQ (length L))%Q ->
  exists v F', slices (S k) sub fuel F n volume D = Ok (v, F') /\ same_front n F F' /\ volume_on_grid g (S k) P v.
Proof.
  intros Hsub G. pose proof (proj1 G) as Hg0. pose proof (natQ_pos g Hg0) as Hg.
  assert (Snoc : forall c : list nat, length c = S k -> exists c' h, c = c' ++ [h]).
  { intros c Hc. destruct c as [|a c] using rev_ind; [discriminate|]. eauto. }
  induction fuel as [|f IH]; intros F n vol D dn L Hf Hn W I ED K1 K2 ND1 HL HL0 EV; cbn [slices].
  all: destruct (Nat.ltb_spec 0 n) as [Pos|Neg]; [try lia|].
  1,3: exists vol, F; split; auto; split; [apply same_refl|]; assert (n = 0) as -> by lia; exists L; split; auto; split; auto; intros c; split;
    [intros Hc; destruct c as [|a c _] using rev_ind; [tauto|]; apply HL in Hc; tauto|];
    intros Hc; destruct (Snoc c (proj1 Hc)) as (c' & h & ->); apply HL; split; auto;
    destruct Hc as [Lc (p & Hp & Ip)]; destruct (proj2 G p k Hp) as (x & m & Hx & Ex); [lia|];
    rewrite app_length in Lc; cbn in Lc; assert (Eh : nth_error (c' ++ [h]) k = Some h) by (rewrite nth_error_app2 by lia; replace (k - length c') with 0 by lia; auto);
    specialize (Ip k h x Eh Hx); destruct (Qlt_le_dec D x) as [C|C]; [destruct (K1 p x Hp Hx C)|];
    apply natQ_lt; rewrite <- ED; nra.
  cbn [Nat.sub]. rewrite Nat.sub_0_r.
  assert (Wk : wf k F) by (intros p Hp; specialize (W p Hp); lia).
  destruct (filter_ok k F n Hn Wk) as (F1 & n1 & E1 & Hn1 & S1 & C1 & A1). rewrite E1. cbn [rbind].
  pose proof (same_length _ _ _ S1) as L1. pose proof (same_wf k _ _ _ S1 Wk) as W1. pose proof (same_wf (S k) _ _ _ S1 W) as W1'.
  assert (I1 : incl (firstn n1 F1) (firstn n F)).
  { intros p Hp. apply (firstn_incl n1 n) in Hp; auto. eapply Permutation_in; [apply Permutation_sym, S1|auto]. }
  assert (P1 : 0 < n1).
  { destruct (nth_error_in_some F 0) as [p Hp]; [lia|]. destruct (C1 p) as (q & Hq & _); [apply In_first; exists 0; auto|]. destruct n1; [destruct Hq|lia]. }
  assert (GR : on_grid g k (firstn n F)) by (apply (grid_incl g k P); auto; apply (grid_le g (S k)); auto).
  destruct (Hsub F1 n1 P1 ltac:(lia) (grid_incl g k (firstn n F) _ I1 GR) W1 A1) as (tv & F2 & E2 & S2 & V2). rewrite E2. cbn [rbind].
  assert (S12 : same_front n F F2) by (eapply same_trans; [apply S1|apply (same_more n1); auto]).
  pose proof (same_length _ _ _ S12) as L2. pose proof (same_wf (S k) _ _ _ S12 W) as W2.
  assert (Eq2 : forall p, In p (firstn n F2) <-> In p (firstn n F)).
  { intros p. split; intros Hp; (eapply Permutation_in; [|apply Hp]); [apply Permutation_sym|]; apply S12. }
  destruct (surface_ok k F2 n) as (m & E3 & (pm & Hpm & Em) & Hm); auto; [lia|]. rewrite E3. cbn [rbind].
  destruct (reduce_loop_ok k m n F2 0 n) as (F3 & n3 & dr & E4 & Hn3 & S3 & P3 & D3 & K3); auto; try lia.
  unfold reduce_nondominated. rewrite E4. cbn [rbind].
  assert (S13 : same_front n F F3) by (eapply same_trans; eauto). pose proof (same_length _ _ _ S13) as L3.
  apply Eq2 in Hpm. destruct (proj2 G pm k (I pm Hpm)) as (m' & mn & Em' & Emn); [lia|]. assert (m' = m) as -> by congruence.
  assert (HDm : (D <= m)%Q) by (apply (K2 pm); auto). assert (Hdm : dn <= mn) by (apply natQ_le; rewrite <- ED, <- Emn; nra).
  apply (volume_iff g k _ (firstn n F)) in V2.
  2:{ intros c. split; apply inside_covers; auto.
      - intros p Hp. apply Wk. apply I1, In_firstn' in Hp. auto.
      - apply covers_incl; auto.
      - intros p Hp. apply Wk. apply In_firstn' in Hp. auto. }
  destruct V2 as (Lr & NDr & Ir & Er).
  assert (Hlt : n3 < n).
  { destruct (Nat.eq_dec n3 n) as [->|]; [|lia]. apply Eq2 in Hpm. eapply Permutation_in in Hpm; [|apply P3].
    pose proof (Permutation_length P3) as PL. rewrite app_length in PL. rewrite !firstn_length in PL. assert (dr = []) as -> by (destruct dr; auto; cbn in PL; lia).
    specialize (K3 pm m Hpm Em). lra. }
  destruct (IH F3 n3 (vol + tv * (m - D))%Q m mn (L ++ stack (seq dn (mn - dn)) Lr)) as (v & F' & E & S' & V'); try lia.
  - eapply same_wf; eauto.
  - intros p Hp. apply I. apply Eq2. eapply Permutation_in; [apply Permutation_sym, P3|]. apply in_app_iff. auto.
  - auto.
  - intros p x Hp Hx Hmx. assert (Hr : In p (firstn n F2)) by (apply Eq2; apply (K1 p x); auto; lra). eapply Permutation_in in Hr; [|apply P3].
    apply in_app_iff in Hr as [Hr|Hr]; auto. specialize (D3 p x Hr Hx). lra.
  - intros p x Hp Hx. specialize (K3 p x Hp Hx). lra.
  - apply NoDup_app_in; auto; [apply stack_NoDup; auto; apply seq_NoDup|]. intros c Hc Hs. destruct (stack_shape _ _ _ Hs) as (c' & h & ->).
    apply HL in Hc as [_ Hh]. apply stack_In in Hs as [Hs _]. apply in_seq in Hs. lia.
  - intros c h. rewrite in_app_iff, HL, stack_In, in_seq, Ir. split.
    + intros [[A B]|[B [Lc (p & Hp & Ip)]]]; [split; auto; lia|]. split; [|lia]. split; [rewrite app_length; cbn; lia|]. exists p. split; auto.
      intros i a x Ha Hx. destruct (Nat.lt_ge_cases i k) as [Hi|Hi].
      * rewrite nth_error_app1 in Ha by lia. apply (Ip i); auto.
      * assert (i = k) as -> by (apply nth_error_lt in Ha; rewrite app_length in Ha; cbn in Ha; lia).
        rewrite nth_error_app2 in Ha by lia. replace (k - length c) with 0 in Ha by lia. cbn in Ha. inversion Ha; subst a.
        assert (Hmx : (m <= x)%Q) by (apply (Hm p); auto; apply Eq2; auto). assert (Hh : (natQ (S h) <= natQ mn)%Q) by (apply natQ_le; lia). rewrite natQ_S, <- Emn in Hh. nra.
    + intros [[Lc (p & Hp & Ip)] Hh]. destruct (Nat.lt_ge_cases h dn) as [A|A].
      * left. split; auto. split; auto. exists p. auto.
      * right. split; [lia|]. rewrite app_length in Lc; cbn in Lc. split; [lia|]. exists p. split.
        -- destruct (proj2 G p k Hp) as (x & mx & Hx & Ex); [lia|]. apply (K1 p x Hp Hx).
           assert (Eh : nth_error (c ++ [h]) k = Some h) by (rewrite nth_error_app2 by lia; replace (k - length c) with 0 by lia; auto).
           specialize (Ip k h x Eh Hx). apply natQ_le in A. rewrite <- ED in A. nra.
        -- intros i a x Ha Hx. apply (Ip i); auto. rewrite nth_error_app1; auto. apply nth_error_lt in Ha. auto.
  - rewrite in_app_iff. intros [C|C]; auto. destruct (stack_shape _ _ _ C) as (c' & h & E). destruct c'; discriminate.
  - rewrite app_length, stack_length, seq_length, natQ_add, natQ_mul, <- EV.
    assert (Ed : (natQ (mn - dn) == (m - D) * natQ g)%Q).
    { assert (T : (natQ (mn - dn + dn) == natQ mn)%Q) by (replace (mn - dn + dn) with mn by lia; reflexivity). rewrite natQ_add in T. rewrite <- ED, <- Emn in T. lra. }
    rewrite Ed, <- Er, !pow_S by auto. ring.
  - exists v, F'. split; auto. split; auto. eapply same_trans; [apply S13|]. eapply same_more; [|apply S']. lia.
Qed.

Lemma calc_ok g : forall k F n, 2 <= k -> n <= length F -> on_grid g k (firstn n F) -> wf k F ->
  exists v F', calc_hypervolume k F n = Ok (v, F') /\ same_front n F F' /\ volume_on_grid g k (firstn n F) v.
Proof.
  induction k as [|k IH]; intros F n Hk Hn G W; [lia|]. cbn [calc_hypervolume].
  pose proof (natQ_pos g (proj1 G)) as Hg.
  apply (slices_ok g k _ (firstn n F)) with (dn := 0) (L := []); auto.
  - destruct (Nat.ltb_spec (S k) 3) as [K3|K3].
    + assert (k = 1) as -> by lia. intros F1 n1 H0 Hn1 G1 W1 A1. apply first_value_ok; auto.
    + intros F1 n1 H0 Hn1 G1 W1 A1. apply IH; auto. lia.
  - apply incl_refl.
  - unfold natQ. cbn. ring.
  - intros p x Hp Hx. destruct (proj2 G p k Hp) as (x' & m & Hx' & E); [lia|]. assert (x' = x) as -> by congruence.
    assert (0 <= natQ m)%Q by (change 0%Q with (natQ 0); apply natQ_le; lia). nra.
  - constructor.
  - intros c h. split; [intros []|lia].
  - cbn [length]. unfold natQ at 2. cbn [Z.of_nat]. ring.
Qed.

(** ** a grid exists *)
Lemma point_grid k p : (forall i, i < k -> exists x, nth_error p i = Some x /\ (0 <= x)%Q) -> exists g, on_grid g k [p].
Proof.
  induction k as [|k IH]; intros H; [exists 1; split; [lia|intros; lia]|]. destruct IH as (g & Hg & G); [intros i Hi; apply H; lia|].
  destruct (H k) as (x & Hx & P); [lia|]. exists (g * Pos.to_nat (Qden x)). split; [pose proof (Pos2Nat.is_pos (Qden x)); nia|].
  intros q i [<-|[]] Hi. destruct (Nat.eq_dec i k) as [->|].
  - exists x, (Z.to_nat (Qnum x) * g). split; auto. rewrite !natQ_mul. unfold natQ. rewrite positive_nat_Z, Z2Nat.id by (destruct x; unfold Qle in P; cbn in *; lia).
    assert (E : (x * inject_Z (Zpos (Qden x)) == inject_Z (Qnum x))%Q) by (destruct x as [a b]; unfold Qeq; cbn; lia). rewrite <- E. ring.
  - destruct (G p i (or_introl eq_refl)) as (y & m & Hy & E); [lia|]. exists y, (m * Pos.to_nat (Qden x)). split; auto. rewrite !natQ_mul, <- E. ring.
Qed.
Lemma grid_exists k P : in_orthant k P -> exists g, on_grid g k P.
Proof.
  induction P as [|p P IH]; intros H; [exists 1; split; [lia|intros q i []]|].
  destruct (point_grid k p) as (g & Hg & G); [intros i Hi; apply H; cbn; auto|]. destruct IH as (g' & Hg' & G'); [intros q i Hq; apply H; cbn; auto|].
  exists (g * g'). split; [nia|]. intros q i [<-|Hq] Hi.
  - destruct (G p i (or_introl eq_refl) Hi) as (x & m & Hx & E). exists x, (m * g'). split; auto. rewrite !natQ_mul, <- E. ring.
  - destruct (G' q i Hq Hi) as (x & m & Hx & E). exists x, (m * g). split; auto. rewrite !natQ_mul, <- E. ring.
Qed.
Lemma volume_unique g k P v w : 0 < g -> volume_on_grid g k P v -> volume_on_grid g k P w -> (v == w)%Q.
Proof.
  intros Hg (L & N & I & E) (L' & N' & I' & E'). assert (X : length L = length L').
  { apply Nat.le_antisymm; apply NoDup_incl_length; auto; intros c Hc; [apply I', I|apply I, I']; auto. }
  rewrite X, <- E' in E. pose proof (pow_pos g k Hg). nra.
Qed.
Theorem calc_hypervolume_correct k F : 2 <= k -> in_orthant k F -> exists v F', calc_hypervolume k F (length F) = Ok (v, F') /\ is_hypervolume k F v.
Proof.
  intros Hk O. destruct (grid_exists k F O) as [g G].
  assert (All : forall g, on_grid g k F -> exists v F', calc_hypervolume k F (length F) = Ok (v, F') /\ volume_on_grid g k F v).
  { intros g' G'. destruct (calc_ok g' k F (length F)) as (v & F' & E & _ & V); auto; rewrite ?firstn_all; auto; [eapply grid_wf; eauto|].
    rewrite firstn_all in V. eauto. }
  destruct (All g G) as (v & F' & E & V). exists v, F'. split; auto. split; [eauto|]. intros g' G'. destruct (All g' G') as (v' & F'' & E' & V').
  assert (v' = v) as -> by congruence. auto.
Qed.
Lemma hypervolume_unique k P v w : is_hypervolume k P v -> is_hypervolume k P w -> (v == w)%Q.
Proof. intros [[g G] A] [_ B]. apply (volume_unique g k P); auto. apply G. Qed.
Lemma hypervolume_mono k P Q v w : (forall p, In p P -> exists q, In q Q /\ ge k q p) -> is_hypervolume k P v -> is_hypervolume k Q w ->
  (exists g, on_grid g k (P ++ Q)) -> (v <= w)%Q.
Proof.
  intros C [_ A] [_ B] [g G]. assert (GP : on_grid g k P) by (apply (grid_incl g k (P ++ Q)); auto; intros x; rewrite in_app_iff; auto).
  assert (GQ : on_grid g k Q) by (apply (grid_incl g k (P ++ Q)); auto; intros x; rewrite in_app_iff; auto).
  destruct (A g GP) as (L & N & I & E). destruct (B g GQ) as (L' & N' & I' & E'). pose proof (pow_pos g k (proj1 G)).
  assert (X : length L <= length L'). { apply NoDup_incl_length; auto. intros c Hc. apply I'. apply I in Hc. eapply inside_covers; eauto; [apply G|]. eapply grid_wf; eauto. }
  apply natQ_le in X. rewrite <- E, <- E' in X. nra.
Qed.
