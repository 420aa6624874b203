(** Dominance depth with two objectives of the same direction (C44). *)
From Coq Require Import List Arith Lia Bool ZArith QArith Lqa Permutation Sorted.
From Verif Require Import Outcome Lib OrderSpec OrderLemmas BoundsModel BoundsProofs ParetoModel ParetoSpec ParetoProofs RankModel RankSpec RankProofs RankSorted.
Import ListNotations.
Close Scope Q_scope.

Lemma nth_firstn {A} (l : list A) n i : nth_error (firstn n l) i = if i <? n then nth_error l i else None.
Proof.
  destruct (Nat.ltb_spec i n); [apply firstn_nth_error; auto|]. apply nth_error_None. rewrite firstn_length. lia.
Qed.
Lemma first_above_spec v : forall d, let k := first_above v d in
  k <= length d /\ (forall i x, i < k -> nth_error d i = Some x -> (x <= v)%Q) /\ (forall x, nth_error d k = Some x -> (v < x)%Q).
Proof.
  induction d as [|y d IH]; cbn zeta; cbn [first_above length].
  - split; [lia|]. split; [intros; lia|]. intros x H. discriminate.
  - destruct (qltb v y) eqn:E.
    + apply qltb_lt in E. split; [lia|]. split; [intros; lia|]. intros x H. cbn in H. inversion H; subst. auto.
    + apply qltb_ge in E. destruct IH as (I1 & I2 & I3). split; [lia|]. split.
      * intros [|i] x Hi Hx; cbn in Hx; [inversion Hx; subst; auto|]. apply (I2 i); auto. lia.
      * exact I3.
Qed.
Lemma all_above_spec v : forall d, (forall x, In x d -> (v < x)%Q) -> all_above v d = true.
Proof. induction d as [|y d IH]; intros H; cbn; auto. rewrite (proj2 (qltb_lt v y)) by (apply H; left; auto). apply IH. intros; apply H; right; auto. Qed.
Lemma upper_bound_ok d v : StronglySorted Qle d -> exists k, upper_bound d v = Ok k /\ k <= length d /\
  (forall i x, i < k -> nth_error d i = Some x -> (x <= v)%Q) /\ (forall i x, k <= i -> nth_error d i = Some x -> (v < x)%Q).
Proof.
  intros S. destruct (first_above_spec v d) as (H1 & H2 & H3). set (k := first_above v d) in *. exists k.
  assert (Hk : forall i x, k <= i -> nth_error d i = Some x -> (v < x)%Q).
  { intros i x Hi Hx. destruct (Nat.eq_dec i k) as [->|]; [auto|].
    destruct (nth_error d k) as [y|] eqn:Ey; [|apply nth_error_None in Ey; apply nth_error_lt in Hx; lia].
    assert (Hki : k < i) by lia. pose proof (StronglySorted_nth _ _ _ _ _ _ S Hki Ey Hx). specialize (H3 y eq_refl). lra. }
  split; auto. unfold upper_bound. fold k. rewrite all_above_spec; auto.
  intros x Hx. apply In_skipn_nth in Hx as (i & Hi & Hx). eauto.
Qed.

Section Place.
Variable m : bool.
Variable top : Q.
Variable size : nat.
Variable rm_equiv : bool.
Notation ky := (ky m top).
Notation lexlt := (lexlt m top).
Notation same2 := (same2 m top).
Notation dom2 := (dom2 m top).

Lemma not_lex v w : ~ lexlt w v -> lexlt v w \/ same2 v w.
Proof.
  unfold RankSorted.lexlt, RankSorted.same2. intros H. destruct (Q_dec (kx m v) (kx m w)) as [[L|L]|L]; [auto|exfalso; apply H; auto|].
  destruct (Q_dec (ky v) (ky w)) as [[L2|L2]|L2]; [auto|exfalso; apply H; right; split; [lra|auto]|auto].
Qed.
Lemma lex_le_dom v w : lexlt w v -> (ky w <= ky v)%Q -> dom2 v w.
Proof. unfold RankSorted.lexlt, RankSorted.dom2, RankSorted.same2. intros [H|[H1 H2]] H3; repeat split; try lra; intros [C1 C2]; lra. Qed.
Lemma lex_not_dom v w : lexlt v w -> ~ dom2 v w.
Proof. unfold RankSorted.lexlt, RankSorted.dom2, RankSorted.same2. intros [H|[H1 H2]] (C1 & C2 & _); lra. Qed.
Lemma same_not_dom v w : same2 v w -> ~ dom2 v w.
Proof. unfold RankSorted.dom2. tauto. Qed.
Lemma same2_sym v w : same2 v w -> same2 w v.
Proof. unfold RankSorted.same2. intros [H1 H2]. split; lra. Qed.
Lemma dom2_same_l v v' w : same2 v v' -> dom2 v w -> dom2 v' w.
Proof. unfold RankSorted.dom2, RankSorted.same2. intros [H1 H2] (C1 & C2 & C3). repeat split; try lra; intros [N1 N2]; apply C3; split; lra. Qed.
Lemma dom2_same_r v w w' : same2 w w' -> dom2 v w -> dom2 v w'.
Proof. unfold RankSorted.dom2, RankSorted.same2. intros [H1 H2] (C1 & C2 & C3). repeat split; try lra; intros [N1 N2]; apply C3; split; lra. Qed.
Lemma lex_same_trans u v w : (lexlt u v \/ same2 u v) -> lexlt v w -> lexlt u w.
Proof. unfold RankSorted.lexlt, RankSorted.same2. intros [[H|[H1 H2]]|[H1 H2]] [H'|[H1' H2']]; try (left; lra); right; split; lra. Qed.

(** members processed so far with their front (starting from 0) *)
Definition layered (l : list ((Q * Q) * nat)) : Prop :=
  forall w g, In (w, g) l -> (0 < g -> exists w' g', In (w', g') l /\ S g' = g /\ dom2 w w') /\
                             (forall w' g', In (w', g') l -> dom2 w w' -> g' < g).
Definition state_ok (d : list Q) (last : nat) (prev : option (Q * Q)) (l : list ((Q * Q) * nat)) : Prop :=
  length d = size /\ last <= length l /\ StronglySorted Qle (firstn last d) /\
  (forall w g, In (w, g) l -> exists x, g < last /\ nth_error d g = Some x /\ (x <= ky w)%Q) /\
  (forall k x, k < last -> nth_error d k = Some x -> exists w, In (w, k) l /\ (ky w == x)%Q) /\
  match prev with
  | None => l = []
  | Some v => (exists g, In (v, g) l) /\ forall w g, In (w, g) l -> lexlt w v \/ same2 w v
  end /\ layered l.

Lemma sorted_set d k last v : length d >= last -> StronglySorted Qle (firstn last d) -> k <= last -> k < length d ->
  (forall i x, i < k -> nth_error d i = Some x -> (x <= v)%Q) -> (forall i x, k <= i -> i < last -> nth_error d i = Some x -> (v < x)%Q) ->
  StronglySorted Qle (firstn (if k =? last then S last else last) (set d k v)).
Proof.
  intros Hd S Hk Hkd H1 H2.
  assert (Iff : forall l, (forall i j x y, i < j -> nth_error l i = Some x -> nth_error l j = Some y -> (x <= y)%Q) -> StronglySorted Qle l).
  { clear. induction l as [|a l IH]; intros H; constructor.
    - apply IH. intros i j x y Hij. apply (H (Datatypes.S i) (Datatypes.S j)). lia.
    - apply Forall_forall. intros y Hy. apply In_nth_error in Hy as [j Hj]. apply (H 0 (Datatypes.S j) a y); auto. lia. }
  apply Iff. intros i j x y Hij Hx Hy.
  assert (Lim : forall i x, nth_error (firstn (if k =? last then Datatypes.S last else last) (set d k v)) i = Some x -> (i < last \/ i = k) /\ nth_error (set d k v) i = Some x).
  { intros i0 x0 H. rewrite nth_firstn in H. destruct (Nat.ltb_spec i0 (if k =? last then Datatypes.S last else last)); [|discriminate]. split; auto.
    destruct (Nat.eqb_spec k last); lia. }
  apply Lim in Hx as [Li Hx]. apply Lim in Hy as [Lj Hy]. rewrite nth_error_set in Hx, Hy. rewrite (proj2 (Nat.ltb_lt k (length d))) in * by auto. rewrite andb_true_r in *.
  destruct (Nat.eqb_spec i k) as [Ei|Ei], (Nat.eqb_spec j k) as [Ej|Ej]; try lia.
  - inversion Hx; subst x. apply Qlt_le_weak. apply (H2 j); auto; lia.
  - inversion Hy; subst y. apply (H1 i); auto. lia.
  - apply (StronglySorted_nth _ _ i j _ _ S Hij).
    + rewrite nth_firstn. rewrite (proj2 (Nat.ltb_lt i last)); auto. lia.
    + rewrite nth_firstn. rewrite (proj2 (Nat.ltb_lt j last)); auto. lia.
Qed.

Lemma place_ok d last prev l v : state_ok d last prev l -> length l < size ->
  (forall w g, In (w, g) l -> ~ lexlt v w) ->
  (rm_equiv = false -> forall w g, In (w, g) l -> ~ same2 v w) ->
  exists d' last' k g, place rm_equiv [m; m] 0 top size (d, last, prev) v = Ok ((d', last', Some v), k) /\
  state_ok d' last' (Some v) (l ++ [(v, g)]) /\
  k = (match prev with Some w => if rm_equiv && same_vector 0 (vec2 v) (vec2 w) then size - 1 else g | None => g end).
Proof.
  intros (Ld & Ll & Sd & Hmem & Hmin & Hprev & Hlay) Hsz Hsorted Hdist.
  assert (Hordered : forall w g, In (w, g) l -> lexlt w v \/ same2 w v) by (intros w g Hw; apply not_lex; eauto).
  unfold place. set (equiv := match prev with Some w => rm_equiv && same_vector 0 (vec2 v) (vec2 w) | None => false end).
  destruct equiv eqn:Eq; unfold equiv in Eq; clear equiv.
  - (* same vector as the previous one *)
    destruct prev as [w|]; [|discriminate]. apply andb_true_iff in Eq as [Er Es]. apply (same2_spec m top) in Es.
    destruct Hprev as [[g Hg] Hord]. exists d, last, (size - 1), g. split; auto. split.
    2:{ rewrite Er, (proj2 (same2_spec m top v w)) by auto. reflexivity. }
    split; auto. split; [rewrite app_length; cbn; lia|]. split; auto. split; [|split; [|split; [|]]].
    + intros w0 g0 H. apply in_app_or in H as [H|[H|[]]]; eauto. inversion H; subst w0 g0. destruct (Hmem w g Hg) as (x & X1 & X2 & X3).
      exists x. repeat split; auto. destruct Es. lra.
    + intros k x Hk Hx. destruct (Hmin k x Hk Hx) as (w0 & W1 & W2). exists w0. split; auto. apply in_or_app; auto.
    + split; [exists g; apply in_or_app; right; left; auto|]. intros w0 g0 H. apply in_app_or in H as [H|[H|[]]]; eauto. inversion H; subst. right. unfold RankSorted.same2. split; lra.
    + intros w0 g0 H. assert (Base : forall w1, (w1 = w0) -> same2 w1 w \/ In (w0, g0) l) by (intros; apply in_app_or in H as [H|[H|[]]]; auto; inversion H; subst; auto).
      apply in_app_or in H as [H|[H|[]]].
      * destruct (Hlay w0 g0 H) as [A1 A2]. split.
        -- intros Hg0. destruct (A1 Hg0) as (w' & g' & B1 & B2 & B3). exists w', g'. split; auto. apply in_or_app; auto.
        -- intros w' g' H' Hd'. apply in_app_or in H' as [H'|[H'|[]]]; eauto. inversion H'; subst w' g'.
           apply (A2 w g); auto. eapply dom2_same_r; eauto.
      * inversion H; subst w0 g0. destruct (Hlay w g Hg) as [A1 A2]. split.
        -- intros Hg0. destruct (A1 Hg0) as (w' & g' & B1 & B2 & B3). exists w', g'. split; [apply in_or_app; auto|]. split; auto. eapply dom2_same_l; [|exact B3]. apply same2_sym; auto.
        -- intros w' g' H' Hd'. apply in_app_or in H' as [H'|[H'|[]]].
           ++ apply (A2 w' g'); auto. eapply dom2_same_l; eauto.
           ++ inversion H'; subst w' g'. exfalso. apply (same_not_dom v v); auto. unfold RankSorted.same2. split; lra.
  - (* a new vector *)
    assert (Hnew : forall w g, In (w, g) l -> lexlt w v).
    { intros w g Hw. destruct (Hordered w g Hw) as [|Hsame]; auto. exfalso. destruct rm_equiv.
      - destruct prev as [p|]; [|subst l; destruct Hw]. destruct Hprev as [[gp Hp] Hord]. rewrite andb_true_l in Eq.
        assert (~ same2 v p) by (intros C; apply same2_spec in C; congruence).
        destruct (Hordered p gp Hp) as [Lpv|Spv]; [|apply H, same2_sym; auto].
        pose proof (lex_same_trans _ _ _ (Hord w g Hw) Lpv) as Lwv. unfold RankSorted.lexlt in Lwv. destruct Hsame as [Q1 Q2]. destruct Lwv as [C|[C1 C2]]; lra.
      - apply (Hdist eq_refl w g Hw). apply same2_sym; auto. }
    change (if nth 1 [m; m] true then snd v else (top - snd v)%Q) with (ky v).
    assert (Lf : length (firstn last d) = last).
    { rewrite firstn_length. destruct (le_lt_dec last (length d)); [lia|]. exfalso. lia. }
    destruct (upper_bound_ok (firstn last d) (ky v) Sd) as (k & Eu & Hk & Below & Above). rewrite Eu. cbn [rbind].
    rewrite Lf in Hk. assert (Hkd : k < length d) by lia.
    assert (Below' : forall i x, i < k -> nth_error d i = Some x -> (x <= ky v)%Q).
    { intros i x Hi Hx. apply (Below i); auto. rewrite nth_firstn, (proj2 (Nat.ltb_lt i last)); auto. lia. }
    assert (Above' : forall i x, k <= i -> i < last -> nth_error d i = Some x -> (ky v < x)%Q).
    { intros i x Hi Hil Hx. apply (Above i); auto. rewrite nth_firstn, (proj2 (Nat.ltb_lt i last)); auto. }
    rewrite upd_set by auto. cbn [of_opt rbind].
    set (last' := if k =? last then S last else last). exists (set d k (ky v)), last', k, k. split; auto.
    assert (Ll' : last <= last') by (unfold last'; destruct (k =? last); lia).
    assert (Hkl : k < last') by (unfold last'; destruct (Nat.eqb_spec k last); lia).
    split.
    2:{ destruct prev as [p|]; auto. rewrite Eq. auto. }
    split; [rewrite set_length; auto|]. split; [rewrite app_length; cbn; unfold last'; destruct (k =? last); lia|].
    split; [apply sorted_set; auto; lia|]. split; [|split; [|split]].
    + intros w g H. apply in_app_or in H as [H|[H|[]]].
      * destruct (Hmem w g H) as (x & X1 & X2 & X3). rewrite nth_error_set, (proj2 (Nat.ltb_lt k (length d))) by auto. rewrite andb_true_r.
        destruct (Nat.eqb_spec g k) as [->|].
        -- exists (ky v). split; [lia|]. split; auto. specialize (Above' k x ltac:(lia) X1 X2). lra.
        -- exists x. repeat split; auto. lia.
      * inversion H; subst w g. exists (ky v). split; auto. rewrite nth_error_set_eq by auto. split; auto. lra.
    + intros i x Hi Hx. rewrite nth_error_set, (proj2 (Nat.ltb_lt k (length d))) in Hx by auto. rewrite andb_true_r in Hx.
      destruct (Nat.eqb_spec i k) as [->|].
      * inversion Hx; subst x. exists v. split; [apply in_or_app; right; left; auto|lra].
      * destruct (Hmin i x) as (w & W1 & W2); auto. { unfold last' in Hi. destruct (Nat.eqb_spec k last); lia. } exists w. split; auto. apply in_or_app; auto.
    + split; [exists k; apply in_or_app; right; left; auto|]. intros w g H. apply in_app_or in H as [H|[H|[]]]; [left; eauto|].
      inversion H; subst. right. unfold RankSorted.same2. split; lra.
    + intros w g H. apply in_app_or in H as [H|[H|[]]].
      * destruct (Hlay w g H) as [A1 A2]. split.
        -- intros Hg0. destruct (A1 Hg0) as (w' & g' & B1 & B2 & B3). exists w', g'. split; auto. apply in_or_app; auto.
        -- intros w' g' H' Hd'. apply in_app_or in H' as [H'|[H'|[]]]; eauto. inversion H'; subst w' g'. exfalso. apply (lex_not_dom w v); eauto.
      * inversion H; subst w g. split.
        -- intros Hk0. destruct (nth_error d (k - 1)) as [x|] eqn:Ex; [|apply nth_error_None in Ex; lia].
           destruct (Hmin (k - 1) x ltac:(lia) Ex) as (w & W1 & W2). exists w, (k - 1). split; [apply in_or_app; auto|]. split; [lia|].
           apply lex_le_dom; eauto. specialize (Below' (k - 1) x ltac:(lia) Ex). lra.
        -- intros w' g' H' Hd'. apply in_app_or in H' as [H'|[H'|[]]].
           ++ destruct (le_lt_dec k g') as [C|]; auto. exfalso. destruct (Hmem w' g' H') as (x & X1 & X2 & X3).
              specialize (Above' g' x C X1 X2). destruct Hd' as (_ & Hd' & _). lra.
           ++ inversion H'; subst w' g'. exfalso. apply (same_not_dom v v); auto. unfold RankSorted.same2. split; lra.
Qed.

Lemma place_all_ok : forall ws d last prev l, state_ok d last prev l -> length l + length ws <= size ->
  (forall i j a b, i < j -> nth_error (map fst l ++ ws) i = Some a -> nth_error (map fst l ++ ws) j = Some b -> ~ lexlt b a) ->
  (rm_equiv = false -> forall i j a b, i < j -> nth_error (map fst l ++ ws) i = Some a -> nth_error (map fst l ++ ws) j = Some b -> ~ same2 b a) ->
  exists ks gs, place_all rm_equiv [m; m] 0 top size (d, last, prev) ws = Ok ks /\ length ks = length ws /\ length gs = length ws /\
  layered (l ++ combine ws gs) /\
  forall i v, nth_error ws i = Some v -> nth_error ks i =
    Some (match (match i with 0 => prev | S j => nth_error ws j end) with
          | Some w => if rm_equiv && same_vector 0 (vec2 v) (vec2 w) then size - 1 else nth i gs 0
          | None => nth i gs 0 end).
Proof.
  induction ws as [|v ws IH]; intros d last prev l Hok Hsz Hs Hd.
  - exists [], []. split; [reflexivity|]. split; [reflexivity|]. split; [reflexivity|]. cbn [combine]. rewrite app_nil_r. split; [apply Hok|].
    intros i v H. destruct i; discriminate.
  - cbn [length] in Hsz. destruct (place_ok d last prev l v Hok) as (d' & last' & k & g & E & Hok' & Ek); [lia|..].
    + intros w g Hw. apply (in_map fst) in Hw. cbn in Hw. apply In_nth_error in Hw as [i Hi]. pose proof (nth_error_lt _ _ _ Hi).
      apply (Hs i (length (map fst l))); [auto|rewrite nth_error_app1; auto|]. rewrite nth_error_app2, Nat.sub_diag by lia. auto.
    + intros Hr w g Hw. apply (in_map fst) in Hw. cbn in Hw. apply In_nth_error in Hw as [i Hi]. pose proof (nth_error_lt _ _ _ Hi).
      apply (Hd Hr i (length (map fst l))); [auto|rewrite nth_error_app1; auto|]. rewrite nth_error_app2, Nat.sub_diag by lia. auto.
    + assert (Em : map fst (l ++ [(v, g)]) ++ ws = map fst l ++ v :: ws) by (rewrite map_app, <- app_assoc; auto).
      destruct (IH d' last' (Some v) (l ++ [(v, g)])) as (ks & gs & E2 & L1 & L2 & Lay & Hks); auto.
      * rewrite app_length. cbn. lia.
      * rewrite Em. auto.
      * rewrite Em. auto.
      * exists (k :: ks), (g :: gs). cbn [place_all]. rewrite E. cbn [rbind]. rewrite E2. cbn [rbind]. split; auto.
        split; [cbn; lia|]. split; [cbn; lia|]. split; [cbn; rewrite <- app_assoc in Lay; auto|].
        intros [|i] w Hw; cbn [nth_error nth].
        -- cbn in Hw. inversion Hw; subst w. rewrite Ek. auto.
        -- cbn [nth_error] in Hw. rewrite (Hks i w Hw). destruct i; auto.
Qed.
End Place.

Lemma assign_fronts_spec : forall ptrs ks f, length ptrs = length ks -> NoDup ptrs -> (forall p, In p ptrs -> p < length f) ->
  length (assign_fronts f ptrs ks) = length f /\
  (forall p, ~ In p ptrs -> nth_error (assign_fronts f ptrs ks) p = nth_error f p) /\
  (forall i p k, nth_error ptrs i = Some p -> nth_error ks i = Some k -> nth_error (assign_fronts f ptrs ks) p = Some (Some (Z.of_nat (k + 1)))).
Proof.
  induction ptrs as [|p ptrs IH]; intros [|k ks] f L N H; cbn in L; try discriminate.
  - cbn. repeat split; auto. intros [|i]; discriminate.
  - inversion N as [|? ? N1 N2]; subst. cbn [assign_fronts]. destruct (IH ks (set f p (Some (Z.of_nat (k + 1))))) as (I1 & I2 & I3); auto.
    { intros q Hq. rewrite set_length. apply H. right; auto. }
    rewrite set_length in I1. split; auto. split.
    + intros q Hq. rewrite I2 by (intros C; apply Hq; right; auto). apply nth_error_set_neq. intros ->. apply Hq. left; auto.
    + intros [|i] q k' Hq Hk; cbn in Hq, Hk.
      * inversion Hq; inversion Hk; subst. rewrite I2 by auto. apply nth_error_set_eq. apply H. left; auto.
      * eapply I3; eauto.
Qed.

Lemma combine_nth_error {A B} : forall (l : list A) (l' : list B) i a b, nth_error l i = Some a -> nth_error l' i = Some b ->
  nth_error (combine l l') i = Some (a, b).
Proof. induction l as [|x l IH]; intros [|y l'] [|i] a b Ha Hb; cbn in *; try discriminate; [congruence|auto]. Qed.
Lemma in_combine_nth {A B} (l : list A) (l' : list B) a b : In (a, b) (combine l l') -> exists i, nth_error l i = Some a /\ nth_error l' i = Some b.
Proof.
  revert l'. induction l as [|x l IH]; intros [|y l'] H; cbn in H; try tauto. destruct H as [H|H].
  - inversion H; subst. exists 0. auto.
  - apply IH in H as (i & H1 & H2). exists (S i). auto.
Qed.
Section TwoFinal.
Variable sort : forall T : Type, (T -> T -> bool) -> list T -> list T.
Hypothesis Hsort : std_sort_ok sort.
Variable m : bool.
Variable rm_equiv : bool.
Variable vs : list (Q * Q).
Notation n := (length vs).
Notation D := (fun a b => dominates [m; m] (vec2 b) (vec2 a)).
Lemma before2_swo {A} (obj : A -> Q * Q) : strict_weak_order (fun a b => obj_before 0 [m; m] (vec2 (obj a)) (vec2 (obj b))).
Proof.
  repeat split; intros *; rewrite <- ?not_true_iff_false, !(before2 m 0); unfold lexlt; try (intros [H|[H1 H2]]; lra).
  intros N1 N2 [C|[C1 C2]].
    + destruct (Qlt_le_dec (kx m (obj a)) (kx m (obj b))); [tauto|]. apply N2. left. lra.
    + destruct (Q_dec (kx m (obj a)) (kx m (obj b))) as [[L|L]|L]; [tauto|apply N2; left; lra|].
      destruct (Qlt_le_dec (ky m 0 (obj a)) (ky m 0 (obj b))); [apply N1; auto|]. apply N2. right. split; lra.
Qed.
Lemma two_ok f0 : length f0 = n -> (rm_equiv = false -> forall i j a b, i <> j -> nth_error vs i = Some a -> nth_error vs j = Some b -> ~ equal_vectors (vec2 a) (vec2 b)) ->
  exists f', twoObjectives sort rm_equiv 0 [m; m] vs f0 = Ok f' /\ length f' = n /\
  (forall i a, nth_error vs i = Some a -> exists r, nth_error f' i = Some (Some (Z.of_nat r)) /\
     (in_front_number D vs i r \/
      (rm_equiv = true /\ r = n /\ exists j b r', j <> i /\ nth_error vs j = Some b /\ equal_vectors (vec2 a) (vec2 b) /\
         nth_error f' j = Some (Some (Z.of_nat r')) /\ in_front_number D vs j r'))).
Proof.
  intros Lf Hdist. unfold twoObjectives, sorted_ptrs.
  set (dflt := (0, 0)%Q).
  destruct (Hsort nat (fun i j => obj_before 0 [m; m] (vec2 (nth i vs dflt)) (vec2 (nth j vs dflt))) (seq 0 n)) as [P S].
  { apply (before2_swo (fun i => nth i vs dflt)). }
  set (ptrs := sort nat _ (seq 0 n)) in *. clearbody ptrs. apply Permutation_sym in P.
  assert (Lp : length ptrs = n) by (rewrite (Permutation_length P), seq_length; auto).
  assert (Np : NoDup ptrs) by (eapply Permutation_NoDup; [apply Permutation_sym; exact P|apply seq_NoDup]).
  assert (Rp : forall p, In p ptrs -> p < n) by (intros p Hp; apply (Permutation_in _ P), in_seq in Hp; lia).
  set (ws := map (fun i => nth i vs dflt) ptrs). set (top := max_obj1 vs).
  assert (Lw : length ws = n) by (unfold ws; rewrite map_length; auto).
  assert (Vp : forall i p, nth_error ptrs i = Some p -> exists v, nth_error ws i = Some v /\ nth_error vs p = Some v).
  { intros i p Hi. exists (nth p vs dflt). unfold ws. rewrite nth_error_map, Hi. split; auto. apply nth_error_nth'. apply Rp. eapply nth_error_In; eauto. }
  assert (Pw : forall i v, nth_error ws i = Some v -> exists p, nth_error ptrs i = Some p /\ nth_error vs p = Some v).
  { intros i v Hi. unfold ws in Hi. rewrite nth_error_map in Hi. destruct (nth_error ptrs i) as [p|] eqn:Ep; [|discriminate]. exists p. split; auto.
    cbn in Hi. rewrite <- Hi. apply nth_error_nth'. apply Rp. eapply nth_error_In; eauto. }
  assert (Sw : forall i j a b, i < j -> nth_error ws i = Some a -> nth_error ws j = Some b -> ~ lexlt m top b a).
  { intros i j a b Hij Ha Hb C. apply (before2 m top) in C. unfold ws in Ha, Hb. rewrite nth_error_map in Ha, Hb.
    destruct (nth_error ptrs i) as [p|] eqn:Ep; [|discriminate]. destruct (nth_error ptrs j) as [q|] eqn:Eq; [|discriminate]. cbn in Ha, Hb.
    pose proof (StronglySorted_nth _ _ _ _ _ _ S Hij Ep Eq) as H. cbv beta in H. inversion Ha; inversion Hb; subst. congruence. }
  assert (Eqv : forall a b, same2 m top a b <-> equal_vectors (vec2 a) (vec2 b)).
  { intros a b. rewrite <- same2_spec, same_vector_exact by auto. tauto. }
  destruct (place_all_ok m top n rm_equiv ws (repeat top n) 0 None []) as (ks & gs & E & L1 & L2 & Lay & Hks).
  { split; [apply repeat_length|]. split; auto. split; [constructor|]. split; [intros w g []|]. split; [intros; lia|]. split; auto. intros w g []. }
  { cbn. lia. }
  { exact Sw. }
  { cbn [map app]. intros Hr i j a b Hij Ha Hb C. apply Pw in Ha as (p & Ep & Ha). apply Pw in Hb as (q & Eq & Hb).
    apply Eqv in C. apply (Hdist Hr q p b a); auto. intros ->. pose proof (NoDup_nth_error_inj ptrs j i p Np Eq Ep). lia. }
  rewrite E. cbn [rbind]. cbn [app] in Lay.
  destruct (assign_fronts_spec ptrs ks f0) as (A1 & _ & A3); [lia|auto|intros p Hp; rewrite Lf; auto|].
  exists (assign_fronts f0 ptrs ks). split; auto. split; [lia|].
  (* the ghost numbering is the numbering of the fronts *)
  assert (Cmb : forall i w g, nth_error ws i = Some w -> nth_error gs i = Some g -> In (w, g) (combine ws gs)).
  { intros i w g Hw Hg. apply nth_error_In with i. apply combine_nth_error; auto. }
  assert (Cmb' : forall w g, In (w, g) (combine ws gs) -> exists i, nth_error ws i = Some w /\ nth_error gs i = Some g).
  { apply in_combine_nth. }
  assert (Fr : forall i, i < n -> in_front_number D ws i (nth i gs 0 + 1)).
  { intros i Hi. rewrite (front_number_iff D (dom2 m top)) by (intros; apply dominates2).
    assert (Gg : forall j, j < n -> exists w g, nth_error ws j = Some w /\ nth_error gs j = Some g /\ nth j gs 0 = g /\ In (w, g) (combine ws gs)).
    { intros j Hj. destruct (nth_error ws j) as [w|] eqn:Ew; [|apply nth_error_None in Ew; lia]. destruct (nth_error gs j) as [g|] eqn:Eg; [|apply nth_error_None in Eg; lia].
      exists w, g. repeat split; auto; [apply nth_error_nth; auto|eauto]. }
    apply (layering (dom2 m top) ws (fun i => nth i gs 0 + 1)); try (rewrite Lw); auto.
    - intros; lia.
    - intros j Hj Hg. destruct (Gg j Hj) as (w & g & G1 & G2 & G3 & G4). destruct (Lay w g G4) as [Y1 _]. destruct Y1 as (w' & g' & Z1 & Z2 & Z3); [lia|].
      apply Cmb' in Z1 as (j' & J1 & J2). exists j'. split; [exists w, w'; auto|]. apply (nth_error_nth _ _ 0) in J2. lia.
    - intros j j' (w & w' & G1 & G2 & G3). pose proof (nth_error_lt _ _ _ G1). pose proof (nth_error_lt _ _ _ G2).
      destruct (Gg j ltac:(lia)) as (w1 & g & H1 & H2 & H3 & H4). destruct (Gg j' ltac:(lia)) as (w2 & g' & H1' & H2' & H3' & H4').
      assert (w1 = w) as -> by congruence. assert (w2 = w') as -> by congruence. destruct (Lay w g H4) as [_ Y2]. specialize (Y2 w' g' H4' G3). lia. }
  assert (Fp : forall i p, nth_error ptrs i = Some p -> in_front_number D vs p (nth i gs 0 + 1)).
  { intros i p Hi. apply (front_rearranged D vs ptrs dflt i p); auto. apply Fr. rewrite <- Lp. eapply nth_error_lt; eauto. }
  assert (Main : forall i p, nth_error ptrs i = Some p -> exists r, nth_error (assign_fronts f0 ptrs ks) p = Some (Some (Z.of_nat r)) /\
     (in_front_number D vs p r \/
      (rm_equiv = true /\ r = n /\ exists k j b r', k < i /\ nth_error ptrs k = Some j /\ nth_error vs j = Some b /\
         (forall a, nth_error vs p = Some a -> equal_vectors (vec2 a) (vec2 b)) /\
         nth_error (assign_fronts f0 ptrs ks) j = Some (Some (Z.of_nat r')) /\ in_front_number D vs j r'))).
  { induction i as [|i IHi]; intros p Hp; destruct (Vp _ _ Hp) as (v & Hv & Hvp); pose proof (Hks _ _ Hv) as Hk.
    - exists (nth 0 gs 0 + 1). rewrite (A3 0 p _ Hp Hk). split; auto.
    - destruct (nth_error ws i) as [w|] eqn:Ew; [|apply nth_error_None in Ew; apply nth_error_lt in Hv; lia]. cbv iota in Hk.
      destruct (rm_equiv && same_vector 0 (vec2 v) (vec2 w)) eqn:Eq.
      + apply andb_true_iff in Eq as [Er Es]. apply (same2_spec m top), Eqv in Es.
        exists n. rewrite (A3 _ p _ Hp Hk). apply nth_error_lt in Hv. split; [do 2 f_equal; lia|]. right. split; auto. split; auto.
        destruct (Pw _ _ Ew) as (q & Hq & Hqv). destruct (IHi q Hq) as (r & R1 & [R2|(_ & -> & k & j & b & r' & J0 & J1 & J2 & J3 & J4 & J5)]).
        * exists i, q, w, r. split; [lia|]. split; auto. split; auto. split; auto. intros a Ha. assert (a = v) as -> by congruence. auto.
        * specialize (J3 w Hqv). exists k, j, b, r'. split; [lia|]. split; auto. split; auto. split; auto.
          intros a Ha. assert (a = v) as -> by congruence. eapply equal_vectors_trans; eauto.
      + exists (nth (Datatypes.S i) gs 0 + 1). rewrite (A3 _ p _ Hp Hk). split; auto. }
  intros i a Ha. assert (In i ptrs) as Hin by (apply (Permutation_in _ (Permutation_sym P)), in_seq; apply nth_error_lt in Ha; lia).
  apply In_nth_error in Hin as [k Hk]. destruct (Main k i Hk) as (r & R1 & [R2|(Er & -> & k' & j & b & r' & J0 & J1 & J2 & J3 & J4 & J5)]); eauto.
  exists n. split; auto. right. split; auto. split; auto. exists j, b, r'. split; [|auto 6].
  intros ->. pose proof (NoDup_nth_error_inj ptrs k k' i Np Hk J1). lia.
Qed.
End TwoFinal.
